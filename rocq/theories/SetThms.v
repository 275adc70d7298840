(* Lemmas for C25 and C37: scalar setters and what is read back. *)
From Verif Require Import Bytes Types JsonSpec Parser Doc DocSpec DocProofs CopyProofs InvProofs OpProofs OpThms Strjson StrSpec StrThms DocStr Float FloatSpec Num NumSpec NumThms NumInt.

Lemma setScalar_get w n x info raw : Node_get w n = Some x ->
  Node_get (setScalar w n info raw) n = Some (mkNode (N.lor info (info_Flags (ninfo x))) raw []).
Proof.
  intro G. destruct (setScalar_tree w n info raw x G) as (r & d & L & -> & Lt). pose proof L as (En & Ed & Er).
  unfold Node_get. rewrite En. cbn. rewrite (putNodes_same _ _ _ _ Ed). cbn. rewrite (proj2 (N.eqb_eq _ _) Er). apply getNode_put_same. auto.
Qed.
Lemma C25_data_lem w n x info raw : Node_get w n = Some x -> In info [vString; vNumber; vBoolean; vNull] ->
  Node_Data (setScalar w n info raw) n = (raw, info) /\ Node_Type (setScalar w n info raw) n = info /\
  exists y, Node_get (setScalar w n info raw) n = Some y /\ nvalues y = [] /\ info_IsRoot (ninfo y) = info_IsRoot (ninfo x).
Proof.
  intros G I. unfold Node_Data, Node_Type. rewrite (setScalar_get _ _ _ info raw G). cbn [ninfo nraw nvalues]. rewrite (info_Type_or_flags _ _ I).
  repeat split; auto. eexists. split; [reflexivity|]. split; auto. cbn [ninfo].
  unfold info_IsRoot, info_Flags. rewrite N.land_lor_distr_l, <- N.land_assoc. change (N.land 65280 infRoot) with infRoot.
  replace (N.land info infRoot) with 0%N; [reflexivity|]. cbn in I. decompose [or] I; try contradiction; subst; reflexivity.
Qed.
Lemma C25_place_lem w n info raw m : (ndoc m, nid m) <> (ndoc n, nid n) ->
  let w' := setScalar w n info raw in
  Node_get w' m = Node_get w m /\ (forall k, Node_Get w' m k = Node_Get w m k) /\ (forall i, Node_Index w' m i = Node_Index w m i).
Proof.
  intros H. cbv zeta. pose proof (setScalar_others w n info raw m H) as E. split; auto. unfold Node_Get, Node_Index. rewrite E. auto.
Qed.
Lemma C25_raw_lem w n x s : Node_get w n = Some x -> tree_of (Node_SetStringRaw w n s) n (JStr s) /\ Node_Raw (Node_SetStringRaw w n s) n = s.
Proof.
  intro G. split; [eapply setScalar_denotes; eauto; reflexivity|]. unfold Node_Raw, Node_SetStringRaw. rewrite (setScalar_get _ _ _ _ _ G). reflexivity.
Qed.
Lemma setString_unescaped w n x e o : Node_get w n = Some x -> Unescaped e = Ok o -> Node_Unescaped (Node_SetStringRaw w n e) n = Ok o.
Proof.
  intros G U. unfold Node_Unescaped, Node_SetStringRaw. rewrite (setScalar_get _ _ _ _ _ G). cbn [ninfo nraw].
  unfold info_IsString. rewrite info_Type_or_flags by (cbn; auto). exact U.
Qed.
Lemma C25_string_lem w n x s rs : Node_get w n = Some x -> runes s rs ->
  exists e e', Node_SetString w n s = Ok (Node_SetStringRaw w n e) /\ Node_Unescaped (Node_SetStringRaw w n e) n = Ok (utf8s rs) /\
    Node_SetStringHTML w n s = Ok (Node_SetStringRaw w n e') /\ Node_Unescaped (Node_SetStringRaw w n e') n = Ok (utf8s rs).
Proof.
  intros G R. destruct (C26_lem s rs false R) as (e & E & U). destruct (C26_lem s rs true R) as (e' & E' & U').
  exists e, e'. unfold Node_SetString, Node_SetStringHTML. rewrite E, E'. cbn. repeat split; eapply setString_unescaped; eauto.
Qed.
Lemma C25_valid_lem w n x s : Node_get w n = Some x -> valid_utf8 s ->
  exists w' w'', Node_SetString w n s = Ok w' /\ Node_Unescaped w' n = Ok s /\ Node_SetStringHTML w n s = Ok w'' /\ Node_Unescaped w'' n = Ok s.
Proof.
  intros G V. destruct (C26_valid_lem s false V) as (e & E & U). destruct (C26_valid_lem s true V) as (e' & E' & U').
  unfold Node_SetString, Node_SetStringHTML. rewrite E, E'. cbn. do 2 eexists. repeat split; eapply setString_unescaped; eauto.
Qed.
Lemma C25_bool_lem w n x : Node_get w n = Some x ->
  tree_of (Node_SetTrue w n) n JTrue /\ Node_ToBool (Node_SetTrue w n) n = (true, true) /\
  tree_of (Node_SetFalse w n) n JFalse /\ Node_ToBool (Node_SetFalse w n) n = (false, true) /\ tree_of (Node_SetNull w n) n JNull.
Proof.
  intro G. unfold Node_SetTrue, Node_SetFalse, Node_SetNull, Node_ToBool.
  rewrite !(setScalar_get _ _ _ _ _ G). cbn [ninfo nraw]. unfold info_IsBoolean. rewrite !info_Type_or_flags by (cbn; auto).
  split; [eapply setScalar_denotes; eauto; reflexivity|]. split; [reflexivity|].
  split; [eapply setScalar_denotes; eauto; reflexivity|]. split; [reflexivity|]. eapply setScalar_denotes; eauto; reflexivity.
Qed.

(* ---- numbers ---- *)

Lemma ToInt_raw w n x : Node_get w n = Some x -> Node_ToInt w n = ParseInt (nraw x) /\ Node_ToUint w n = ParseUint (nraw x) /\
  fst (Node_ToFloat w n) = ParseFloat (nraw x).
Proof. intro G. unfold Node_ToInt, Node_ToUint, Node_ToFloat, ParseInt, ParseUint. rewrite G. auto. Qed.
Lemma tree_num w n s : tree_of w n (JNum s) -> exists x, Node_get w n = Some x /\ nraw x = s.
Proof.
  intros (r & d & E & Ed & Er & D). inversion D; subst. eexists. split; [|reflexivity]. unfold Node_get. rewrite E; cbn; rewrite Ed, (proj2 (N.eqb_eq _ _) Er). auto.
Qed.
Lemma node_ToInt w n s : tree_of w n (JNum s) -> Node_ToInt w n = ParseInt s /\ Node_ToUint w n = ParseUint s /\ fst (Node_ToFloat w n) = ParseFloat s.
Proof. intro T. apply tree_num in T as (x & G & <-). apply ToInt_raw. auto. Qed.

Lemma SetInt_tree w n x i : Node_get w n = Some x -> tree_of (Node_SetInt w n i) n (JNum (FormatInt i)).
Proof. intro G. eapply setScalar_denotes; eauto. Qed.
Lemma SetUint_tree w n x i : Node_get w n = Some x -> tree_of (Node_SetUint w n i) n (JNum (FormatUint (Z.to_N i))).
Proof. intro G. eapply setScalar_denotes; eauto. Qed.
Lemma FormatUint_text z : (0 <= z)%Z -> FormatUint (Z.to_N z) = text (int_parts z) /\ integer_text (int_parts z) /\ intval (int_parts z) = z.
Proof.
  intro H. destruct (FormatInt_text z) as (E & T & V). split; auto. rewrite <- E. unfold FormatInt. rewrite (proj2 (Z.ltb_ge z 0)) by auto. reflexivity.
Qed.
Lemma C37_text_lem z : exists p, FormatInt z = text p /\ integer_text p /\ intval p = z.
Proof. destruct (FormatInt_text z) as (E & T & V). exists (int_parts z). auto. Qed.
Lemma C37_int_iff w n x i : Node_get w n = Some x -> (- 2 ^ 63 <= i < 2 ^ 63)%Z -> (Node_ToInt (Node_SetInt w n i) n = (i, true) <-> float_int i).
Proof.
  intros G B. destruct (node_ToInt _ _ _ (SetInt_tree w n x i G)) as (-> & _). destruct (FormatInt_text i) as (-> & T & V).
  rewrite <- V at 2. rewrite (C36_int_iff _ T), V. tauto.
Qed.
Lemma C37_uint_iff w n x i : Node_get w n = Some x -> (0 <= i < 2 ^ 64)%Z -> (Node_ToUint (Node_SetUint w n i) n = (i, true) <-> float_int i).
Proof.
  intros G B. destruct (node_ToInt _ _ _ (SetUint_tree w n x i G)) as (_ & -> & _). destruct (FormatUint_text i (proj1 B)) as (-> & T & V).
  rewrite <- V at 2. rewrite (C36_uint_iff _ T), V. tauto.
Qed.
Lemma C37_int_lem w n x i : Node_get w n = Some x -> (- 2 ^ 53 <= i <= 2 ^ 53)%Z -> Node_ToInt (Node_SetInt w n i) n = (i, true).
Proof. intros G B. eapply C37_int_iff; eauto; [lia|]. apply rep53. lia. Qed.
Lemma C37_uint_lem w n x i : Node_get w n = Some x -> (0 <= i <= 2 ^ 53)%Z -> Node_ToUint (Node_SetUint w n i) n = (i, true).
Proof. intros G B. eapply C37_uint_iff; eauto; [lia|]. apply rep53. lia. Qed.
Definition wnull : world := [mkDoc [mkNode vNull strNull []] 0].
Lemma C37_refuted_lem : exists w n x i, Node_get w n = Some x /\ (- 2 ^ 63 <= i < 2 ^ 63)%Z /\ Node_ToInt (Node_SetInt w n i) n = ((i - 1)%Z, true).
Proof.
  exists wnull, (mkN 0 0 (Some O)), (mkNode vNull strNull []), 9007199254740993%Z. split; [reflexivity|]. split; [lia|]. vm_compute. reflexivity.
Qed.
Lemma C37_max_refuted_lem : exists w n x, Node_get w n = Some x /\ snd (Node_ToInt (Node_SetInt w n (2 ^ 63 - 1)) n) = false /\
  snd (Node_ToUint (Node_SetUint w n (2 ^ 64 - 1)) n) = false.
Proof.
  exists wnull, (mkN 0 0 (Some O)), (mkNode vNull strNull []). split; [reflexivity|]. vm_compute. auto.
Qed.
Lemma node_dead w n : Node_get w n = None -> Node_ToInt w n = (0%Z, false) /\ Node_ToUint w n = (0%Z, false) /\ Node_ToFloat w n = (zeroF, false).
Proof. intro H. unfold Node_ToInt, Node_ToUint, Node_ToFloat. rewrite H. auto. Qed.
