(* Concrete types and texts for C78. *)
From Coq Require Import Permutation.
From Verif Require Import NumExamples NumClose NumThms FloatSpec FloatOps NumSpec FmtSpec FmtThms StrSpec StrThms Utf8 Utf8Proofs Bytes Types JsonSpec Parser ParserThms Doc DocSpec Strjson Float Num NumInt NumProofs Iface IfaceSpec OptSpec Options OptThms Codec CodecSpec CodecMerge CodecBase CodecBuild CodecExamples
  DecodeSpec DecodeThms DecodeExamples RoundThms Coder CoderSpec CoderExamples TreeSpec TreeThms Gen GenSpec GenExamples GenRound RfcOne AgreeSpec AgreeThms AgreeExamples StdSpec StdFields StdExamples StdUSpec StdUThms.
Local Open Scope nat_scope.

(* ---- texts ---- *)
Inductive tokens (strOK keyOK numOK : bytes -> Prop) : jval -> Prop :=
| tk_null : tokens strOK keyOK numOK JNull
| tk_true : tokens strOK keyOK numOK JTrue
| tk_false : tokens strOK keyOK numOK JFalse
| tk_num w : numOK w -> tokens strOK keyOK numOK (JNum w)
| tk_str w : strOK w -> tokens strOK keyOK numOK (JStr w)
| tk_arr js : Forall (tokens strOK keyOK numOK) js -> tokens strOK keyOK numOK (JArr js)
| tk_obj ms : Forall (fun m => keyOK (fst m) /\ tokens strOK keyOK numOK (snd m)) ms -> tokens strOK keyOK numOK (JObj ms).
Lemma join_cons (x : bytes) y l : join x2c (x :: y :: l) = x ++ x2c :: join x2c (y :: l). Proof. reflexivity. Qed.
Lemma print_tokens strOK keyOK numOK j : tokens strOK keyOK numOK j -> value ws strOK keyOK numOK j (print j).
Proof.
  assert (Nw : ws []) by constructor. induction j as [w|w| | | |vs IH|ms IH] using jval_ind'; intro T; inversion T; subst; cbn [print]; try (constructor; assumption).
  - destruct vs as [|v vs]; [apply (v_arr0 _ _ _ _ []); exact Nw|]. apply v_arr. match goal with A : Forall (tokens _ _ _) _ |- _ => rename A into Ft end. clear T. revert v Ft IH. induction vs as [|v' vs IHl]; intros v Ft IH; inversion Ft; inversion IH; subst.
    + cbn [map join]. pose proof (el_one ws strOK keyOK numOK [] v (print v) []) as X. rewrite app_nil_r in X. apply X; auto.
    + change (elements ws strOK keyOK numOK (v :: v' :: vs) ([] ++ print v ++ [] ++ x2c :: join x2c (map print (v' :: vs)))). apply el_cons; auto.
  - destruct ms as [|(k, v) ms]; [apply (v_obj0 _ _ _ _ []); exact Nw|]. apply v_obj. match goal with A : Forall (fun m => _ /\ tokens _ _ _ _) _ |- _ => rename A into Ft end. clear T. revert k v Ft IH. induction ms as [|(k', v') ms IHl]; intros k v Ft IH; inversion Ft as [|? ? (Kk & Tv)]; inversion IH; subst; cbn [fst snd] in *.
    + cbn [map join fst snd]. pose proof (mem_one ws strOK keyOK numOK [] k [] [] v (print v) []) as X. cbn [app] in X. rewrite app_nil_r in X. apply X; auto.
    + pose proof (mem_cons ws strOK keyOK numOK [] k [] [] v (print v) [] ((k', v') :: ms) (join x2c (map (fun m => x22 :: fst m ++ x22 :: x3a :: print (snd m)) ((k', v') :: ms)))) as X. cbn [app] in X.
      replace (join x2c (map (fun m => x22 :: fst m ++ x22 :: x3a :: print (snd m)) ((k, v) :: (k', v') :: ms))) with
        (x22 :: k ++ x22 :: x3a :: print v ++ x2c :: join x2c (map (fun m => x22 :: fst m ++ x22 :: x3a :: print (snd m)) ((k', v') :: ms))); [apply X; auto|].
      cbn [map]. rewrite join_cons. cbn [app fst snd]. rewrite <- app_assoc. reflexivity.
Qed.

(* ---- types ---- *)

(* 6 int64, 7 struct{A int64; B string}, 8 []string, 9 struct{A string; T7; Name string "name,omitempty"; Next *T9; Tags []string "tags";
   X interface{} "x"; Skip int64 "-"; F float64 "f"; R [2]int64 "r"}, 10 *T9, 11 [2]int64, 12 *T7, 13 *int64, 14 int8, 15 *int8, 16 *string *)
Definition fs9u : list sfield := [fld (str "A") tString; emb (str "T7") 7; tagged (str "Name") tString (str "name,omitempty"); fld (str "Next") 10; tagged (str "Tags") 8 (str "tags");
  tagged (str "X") tIface (str "x"); tagged (str "Skip") 6 (str "-"); tagged (str "F") tFloat64 (str "f"); tagged (str "R") 11 (str "r")].
Definition unE : env := envOf [plainT (KInt 64); plainT (KStruct fs7); plainT (KSlice tString); plainT (KStruct fs9u); plainT (KPtr 9); plainT (KArray 2 6); plainT (KPtr 7); plainT (KPtr 6); plainT (KInt 8); plainT (KPtr 14); plainT (KPtr tString)].
Definition unRank (t : tid) : nat := match t with 7 => 1 | 9 => 2 | 11 => 1 | _ => 0 end.
Lemma un_wf : wf_types unE.
Proof. apply (check_wf unE unRank); [|vm_compute; reflexivity]. intro t. change (length (types unE)) with 17. do 17 (destruct t as [|t]; [cbn; lia|]). cbn. lia. Qed.
Lemma un_structs_are u fs : kindOf unE u = Some (KStruct fs) -> u = 7 /\ fs = fs7 \/ u = 9 /\ fs = fs9u.
Proof. intro K. do 17 (destruct u as [|u]; [vm_compute in K; try discriminate K; injection K as <-; auto 10|]). destruct u; discriminate K. Qed.
Lemma un_fields t fs : kindOf unE t = Some (KStruct fs) -> Forall (std_field unE ascii) fs.
Proof. intro K. destruct (un_structs_are t fs K) as [(_ & ->)|(_ & ->)]; unfold fs7, fs9u; repeat (apply Forall_cons; [fielded|]); apply Forall_nil. Qed.
Lemma un_embeds : embeds_structs unE.
Proof.
  intros t fs f e K I A Ke. destruct (un_structs_are t fs K) as [(_ & ->)|(_ & ->)]; unfold fs7, fs9u in I; cbn [In] in I;
    repeat (destruct I as [<-|I]; [first [discriminate A|discriminate Ke|injection Ke as <-; exists fs7; reflexivity]|]); destruct I.
Qed.
Lemma un_std : std_structs unE ascii.
Proof.
  intros t fs K. split; [apply (un_fields t); exact K|]. assert (O : exists l, offers unE defaultOptions t [] l /\ firsts l = true).
  { destruct (un_structs_are t fs K) as [(-> & _)|(-> & _)]; eexists; (split; [offered|vm_compute; reflexivity]). }
  destruct O as (l & Of & F). eapply first_offers; [exact un_fields|exact un_embeds|exact Of|apply firsts_ok; exact F].
Qed.
Lemma un_bytes : no_bytes unE.
Proof. intros t e K. do 17 (destruct t as [|t]; [vm_compute in K; try discriminate K; injection K as <-; discriminate|]). destruct t; discriminate K. Qed.
Lemma un_world : unstd_world unE ascii.
Proof. split; [exact un_wf|]. split; [exact un_embeds|]. split; [exact un_std|exact un_bytes]. Qed.
Lemma un_kind t k : kindOf unE t = Some k -> In t (seq 0 17).
Proof. intro K. apply kindOf_lt in K. apply in_seq. exact (conj (Nat.le_0_l _) K). Qed.
Ltac un_types K := let J := fresh in pose proof (un_kind _ _ K) as J; cbn [seq In] in J; repeat (destruct J as [<-|J]); [..|contradiction J]; cbv in K; try discriminate K; injection K as <-.
Lemma un_acyclic : forall t, ~ cyclic unE decodeOptions t.
Proof.
  intros t C. destruct (cyclic_step _ _ _ C) as (u & (fs & f & key & h & K & _) & _). assert (S : isStruct unE t = true) by (apply isStruct_iff; eauto).
  apply (structFields_total_lem _ _ _ S) in C. un_types K; vm_compute in C; discriminate C.
Qed.
Lemma un_pointers : no_pointer_loop unE.
Proof.
  exists (fun t => match t with 10 | 12 | 13 | 15 | 16 => 1 | _ => 0 end). split.
  - intro t. change (length (types unE)) with 17. do 17 (destruct t as [|t]; [lia|]). lia.
  - intros t e K. un_types K; lia.
Qed.
Lemma un_target t e : kindOf unE t = Some (KPtr e) -> decodable unE decodeOptions e -> (exists r, newCodec unE decodeOptions (IDec e) = Ok (Some r)) -> target unE t e.
Proof.
  intros K Dc (r & B). split; [|split; [exact Dc|split; [exact un_acyclic|split; [exact un_pointers|]]]].
  - un_types K; eexists; repeat split; reflexivity.
  - intros x Ux Lx. destruct (Dc e (rd_here _ _ _)) as (X & Ty & _). destruct (C54_lem unE decodeOptions (IDec e) un_wf un_acyclic (kindOf_lt _ _ _ (typeOf_kindOf _ _ _ Ty))) as (b & Bd & Iff).
    rewrite B in Bd. injection Bd as <-. enough (Some r = None) by discriminate. apply Iff. eauto.
Qed.
Ltac reads_un L R := let I := fresh in pose proof (reads_in unE decodeOptions L ltac:(vm_compute; reflexivity) _ _ R ltac:(cbn; tauto)) as I; cbn [In] in I; repeat (destruct I as [<-|I]); [..|contradiction I].
Ltac decs_un L := intros ? R; reads_un L R; (eexists; split; [reflexivity|]; split; [repeat split; reflexivity|]); try exact Logic.I;
  (eexists; split; [vm_compute; reflexivity|]; repeat constructor; discriminate).
Lemma tgu9 : target unE 10 9. Proof. apply un_target; [reflexivity|decs_un [9; 6; tString; 10; 8; tIface; tFloat64; 11]|eexists; vm_compute; reflexivity]. Qed.
Lemma tgu7 : target unE 12 7. Proof. apply un_target; [reflexivity|decs_un [7; 6; tString]|eexists; vm_compute; reflexivity]. Qed.
Lemma tgu6 : target unE 13 6. Proof. apply un_target; [reflexivity|decs_un [6]|eexists; vm_compute; reflexivity]. Qed.
Lemma tgu14 : target unE 15 14. Proof. apply un_target; [reflexivity|decs_un [14]|eexists; vm_compute; reflexivity]. Qed.
Lemma tguS : target unE 16 tString. Proof. apply un_target; [reflexivity|decs_un [tString]|eexists; vm_compute; reflexivity]. Qed.
Lemma un_hazard t : In t [9; 6; tString; 10; 8; tIface; tFloat64; 11; 7; 14] -> ~ hazard unE decodeOptions t.
Proof. intros I (u & R & H). pose proof (reads_in unE decodeOptions [9; 6; tString; 10; 8; tIface; tFloat64; 11; 7; 14] ltac:(vm_compute; reflexivity) _ _ R I) as J. cbn [In] in J. repeat (destruct J as [<-|J]); [..|contradiction J]; destruct H as [(k & e & K)|[N K]]; try discriminate K. apply N. reflexivity. Qed.

(* ---- keys, strings and numbers ---- *)

(* The same but for the case of ASCII letters. *)
Definition lowerA (c : byte) : N := if ((65 <=? bN c) && (bN c <=? 90))%N then (bN c + 32)%N else bN c.
Definition foldA (a b : bytes) : Prop := map lowerA a = map lowerA b.
Definition sevenBit (s : bytes) : bool := forallb (fun c => bN c <? 128)%N s.
Lemma seven_utf8 s : sevenBit s = true -> exists rs, Forall scalar rs /\ s = utf8s rs.
Proof.
  intro H. exists (map bN s). unfold sevenBit in H. rewrite forallb_forall in H. split.
  - rewrite Forall_forall. intros r I. apply in_map_iff in I as (c & <- & I). left. specialize (H c I). apply N.ltb_lt in H. lia.
  - induction s as [|c s IH]; [reflexivity|]. unfold utf8s in *. cbn [map concat]. rewrite <- IH by (intros; apply H; right; assumption). unfold utf8. rewrite (H c (or_introl eq_refl)). cbn [app]. f_equal. symmetry. apply Nb_bN.
Qed.
Lemma means_string w o : meaning w o -> sevenBit o = true -> string_of w o.
Proof. intros M B. destruct (seven_utf8 o B) as (rs & Sc & Eo). exists o, rs. split; [exact M|]. split; [rewrite Eo; apply runes_valid; exact Sc|exact Eo]. Qed.
Lemma means_well w o : tame w -> meaning w o -> sevenBit o = true -> well_string w.
Proof. intros Tm M B. split; [exact Tm|]. intros o' M'. rewrite (meaning_det _ _ _ M' M). apply seven_utf8. exact B. Qed.
Definition noSlash (s : bytes) : bool := forallb (fun c => negb (beqb c x5c)) s.
Lemma plain_string k : noSlash k = true -> sevenBit k = true -> string_of k k.
Proof. intros A B. apply means_string; [apply plain_means; apply not_in_list; exact A|exact B]. Qed.
Lemma plain_well k : noSlash k = true -> sevenBit k = true -> well_string k.
Proof. intros A B. eapply means_well; [|apply plain_means; apply not_in_list; exact A|exact B]. rewrite <- (app_nil_r k). apply plain_tame; [apply not_in_list; exact A|constructor]. Qed.
Lemma names_in E letter L : (forall t fs f name ps, kindOf E t = Some (KStruct fs) -> In f fs -> std_tag letter f name ps -> In (match name with [] => fname f | _ => name end) L) -> forall t s, candidate E letter t s -> In (s_name s) L.
Proof.
  intros H t s C. induction C as [t fs i f name opts K I T _ Ne|t fs i f opts K I T _ _|t fs i f opts u p s K I T Em C IH]; [|exact (H t fs f [] opts K (nth_error_In _ _ I) T)|exact IH].
  pose proof (H t fs f name opts K (nth_error_In _ _ I) T). destruct name; [contradiction|assumption].
Qed.
Lemma dash_none letter n t name ps : ~ std_tag letter (tagged n t (str "-")) name ps.
Proof. intro H. inversion H as [L|v p q L N|v p q L N]; subst; [discriminate L|..]; apply N; assert (X : forall a b : bytes, Some a = Some b -> b = a) by congruence; apply X; exact L. Qed.
Definition un_names : list bytes := map str ["A"; "B"; "T7"; "name"; "Next"; "tags"; "x"; "f"; "r"]%string.
Ltac name_of H := match type of H with
  | std_tag _ (tagged ?n ?t ?tag) _ _ => let l := eval vm_compute in (splitComma tag) in lazymatch l with (?p, ?q) =>
      first [exfalso; exact (dash_none _ _ _ _ _ H) |
      let V := fresh in assert (V : std_tag ascii (tagged n t tag) p q) by tag_is p q; destruct (std_tag_one _ _ _ _ _ _ V H) as (<- & _); cbn; tauto] end
  | _ => inversion H; subst; [cbn; tauto|discriminate..] end.
Lemma un_name t s : candidate unE ascii t s -> In (s_name s) un_names.
Proof.
  apply names_in. clear t s. intros t fs f name ps K I T. destruct (un_structs_are t fs K) as [(_ & ->)|(_ & ->)]; unfold fs7, fs9u in I; cbn [In] in I; repeat (destruct I as [<-|I]; [name_of T|]); destruct I.
Qed.
Lemma well_key_un k : noSlash k = true -> sevenBit k = true -> Forall (fun n => foldA n k -> n = k) un_names -> well_key unE ascii foldA k.
Proof. intros A B C. split; [apply not_in_list; exact A|]. split; [apply seven_utf8; exact B|]. intros t s Cd F. rewrite Forall_forall in C. exact (C _ (un_name t s Cd) F). Qed.
Ltac key_ok := apply well_key_un; [vm_compute; reflexivity|vm_compute; reflexivity|repeat (apply Forall_cons; [let H := fresh in intro H; first [reflexivity|vm_compute in H; discriminate H]|]); apply Forall_nil].
(* Numbers that are floats. *)
Lemma exact_rounded p m e : ParseFloat (text p) = FFin (pneg p) m e -> canonical b64 (FFin (pneg p) m e) -> (fval (FFin (pneg p) m e) == numval p)%Q -> rounded b64 (pneg p) (numval p) (FFin (pneg p) m e).
Proof. intros _ C V. eapply rounded_ext; [exact V|]. apply canonical_rounded; [vm_compute; split; discriminate|exact C]. Qed.
Lemma exact_well p m e : shape one_sign p -> ParseFloat (text p) = FFin (pneg p) m e -> canonical b64 (FFin (pneg p) m e) -> (fval (FFin (pneg p) m e) == numval p)%Q -> (integer_text p -> (Z.abs (intval p) <= 2 ^ 53)%Z) -> well_number p.
Proof.
  intros Sp P C V I. pose proof (exact_rounded p m e P C V) as R. split; [exact Sp|]. split; [rewrite P; exact R|]. split; [|intro T; apply rep53; auto].
  intros x y Rx _ Ry. rewrite (rounded_unique b64 (pneg p) (numval p) x (FFin (pneg p) m e)) in Ry; [|vm_compute; split; discriminate|exact Rx|exact R]. eapply rounded_ext; [exact V|exact Ry].
Qed.
Definition pHalf : NumSpec.parts := mkParts false (str "0") (Some (str "5")) None.
Definition pMinus : NumSpec.parts := mkParts true (str "2") (Some (str "50")) None.
Definition p7 : NumSpec.parts := mkParts false (str "7") None None.
Definition p8 : NumSpec.parts := mkParts false (str "8") None None.
Definition p9 : NumSpec.parts := mkParts false (str "9") None None.
Ltac number_ok := eapply exact_well; [parts_ok|vm_compute; reflexivity|vm_compute; repeat split; try discriminate; left; discriminate|vm_compute; reflexivity|intro; vm_compute; discriminate].
Lemma half_well : well_number pHalf. Proof. number_ok. Qed.
Lemma minus_well : well_number pMinus. Proof. number_ok. Qed.
Lemma small_well p : In p [p7; p8; p9] -> well_number p.
Proof. intros [<-|[<-|[<-|[]]]]; number_ok. Qed.
Definition j78 : jval := JObj [(str "A", JStr (str "a\n")); (str "B", JStr (str "b")); (str "Next", JObj [(str "A", JStr (str "c")); (str "r", JArr [JNum (text p7); JNum (text p8); JNum (text p9)])]);
  (str "tags", JArr [JStr (str "x"); JStr (str "y")]); (str "x", JObj [(str "k", JArr [JNum (text pHalf); JNull])]); (str "f", JNum (text pMinus)); (str "zz", JTrue)].
Definition s78 : bytes := x20 :: print j78 ++ [x0a].
Definition z78 : gv := VStruct [VString []; VStruct [VInt 0; VString []]; VString []; VPtr None; VSlice None; VIface None; VInt 0; VFloat zeroF; VArray [VInt 0; VInt 0]].
Lemma an_means : meaning (str "a\n") [x61; x0a].
Proof. apply m_plain; [discriminate|]. apply (m_escape x6e x0a); [|constructor]. exact ec_n. Qed.
Lemma j78_well : well unE ascii foldA j78.
Proof.
  assert (A : well_string (str "a\n")) by (eapply means_well; [|exact an_means|reflexivity]; apply StrSpec.t_plain; [discriminate|]; apply StrSpec.t_other; [discriminate|constructor]).
  unfold j78. repeat first [apply wl_obj; [repeat constructor; cbn; intuition discriminate|] | apply wl_arr | apply Forall_cons; [first [split; [key_ok|]|idtac]; cbn [fst snd]|] | apply Forall_nil | apply wl_null | apply wl_true
    | apply wl_str; first [exact A|apply plain_well; reflexivity] | apply wl_num; first [exact half_well|exact minus_well|apply small_well; cbn; tauto] ].
Qed.
Lemma ends_plain w c : last w c <> x5c -> w = [] \/ c <> x5c -> plain_end w.
Proof. intros H _. right. intros u ->. apply H. apply last_last. Qed.
Lemma j78_text : well_text s78 j78.
Proof.
  exists [x20], (print j78), [x0a]. split; [reflexivity|]. split; [constructor; [left; reflexivity|constructor]|]. split; [constructor; [unfold ws_byte; auto|constructor]|]. apply print_tokens.
  assert (Ds : forall ds, forallb (fun c => (48 <=? bN c)%N && (bN c <=? 57)%N) ds = true -> Forall digit ds).
  { intros ds H. rewrite forallb_forall in H. rewrite Forall_forall. intros c I. specialize (H c I). apply andb_prop in H as (A & B). apply N.leb_le in A, B. split; assumption. }
  unfold j78. repeat first [apply tk_obj | apply tk_arr | apply Forall_cons; [first [split; [apply chars_ok; vm_compute; reflexivity|]|idtac]; cbn [fst snd]|] | apply Forall_nil | apply tk_null | apply tk_true
    | apply tk_str; split; [first [apply chars_ok; vm_compute; reflexivity|apply chars_plain; [vm_compute; discriminate|discriminate|discriminate|]; apply chars_esc; [cbn; auto 10|constructor]]|apply (ends_plain _ x61); [vm_compute; discriminate|right; discriminate]]
    | apply tk_num; apply rfc_parts; [parts_ok|cbn [pint pHalf pMinus p7 p8 p9]; first [apply int_zero|apply int_nz; [vm_compute; split; discriminate|constructor]]] ].
Qed.
Lemma put_at i l x path o y x' z : z = Z.of_nat i -> nth_error l i = Some x -> put x path o y x' -> put (VStruct l) (z :: path) o y (VStruct (firstn i l ++ x' :: skipn (S i) l)).
Proof.
  intros -> N P. pose proof (put_field (firstn i l) x (skipn (S i) l) path o y x' P) as H. assert (L : length (firstn i l) = i) by (apply firstn_length_le, Nat.lt_le_incl, nth_error_Some; congruence). rewrite L in H.
  assert (Q : forall (l : list gv) i, nth_error l i = Some x -> firstn i l ++ x :: skipn (S i) l = l). { clear. induction l as [|a l IH]; intros [|i] N; try discriminate; cbn in *; [congruence|]. f_equal. apply IH. exact N. }
  rewrite (Q _ _ N) in H. exact H.
Qed.
Lemma un_blank t z : t < 17 -> zero unE t = z -> blank unE t z.
Proof. intros L <-. apply zero_good; [exact un_wf|exact L]. Qed.
Lemma z78_blank : blank unE 9 z78.
Proof. apply un_blank; [lia|vm_compute; reflexivity]. Qed.
Lemma un_std_fields t fs cs : kindOf unE t = Some (KStruct fs) -> structFields unE defaultOptions t = Ok cs -> exists ss, Forall2 (stands unE []) cs ss /\ std_fields unE ascii t ss.
Proof. intros K S. exact (fields_std unE ascii un_fields un_embeds t cs (proj2 (un_std t fs K)) (C46_exact_lem _ _ _ _ S)). Qed.
Definition v78n : gv := VStruct [VString (str "c"); VStruct [VInt 0; VString []]; VString []; VPtr None; VSlice None; VIface None; VInt 0; VFloat zeroF; VArray [VInt 7; VInt 8]].
Definition v78 : gv := VStruct [VString [x61; x0a]; VStruct [VInt 0; VString (str "b")]; VString []; VPtr (Some v78n); VSlice (Some ([VString (str "x"); VString (str "y")], []));
  VIface (Some (tMapSI, VMap (Some [(VString (str "k"), VIface (Some (tSliceI, VSlice (Some ([VIface (Some (tFloat64, VFloat (FFin false (2 ^ 52) (-53)))); VIface None], [])))))]))); VInt 0; VFloat (FFin true (5 * 2 ^ 50) (-51)); VArray [VInt 0; VInt 0]].
Lemma ex78_stores : Unmarshal unE 0 s78 10 (VPtr (Some z78)) = Ok (VPtr (Some v78), None).
Proof. vm_compute. reflexivity. Qed.
Ltac stood F := repeat match type of F with Forall2 _ (_ :: _) _ => let s := fresh "s" in let l := fresh "l" in let H := fresh in inversion F as [|? s ? l H F']; subst; clear F; rename F' into F;
  destruct H as (? & ? & ? & _ & ? & _ & _) | Forall2 _ [] _ => inversion F; subst; clear F end; cbn [ckey cindex ctype app] in *.
Lemma str_loads t s0 w : kindOf unE t = Some KString -> noSlash w = true -> sevenBit w = true -> loads unE ascii foldA t (VString s0) (JStr w) (VString w).
Proof. intros K A B. eapply ld_string; [exact K|apply plain_string; assumption]. Qed.
Ltac puts := repeat (match goal with |- put _ (?z :: _) _ _ _ => let i := eval cbv in (Z.to_nat z) in eapply (put_at i); [reflexivity|reflexivity|] end); apply put_here.
Ltac lfield s := eapply (lf_field _ _ _ _ _ _ _ _ _ s); [apply plain_string; reflexivity|left; split; [cbn; tauto|match goal with H : _ = s_name s |- _ => rewrite <- H; reflexivity end]|assumption
  |match goal with H : _ = s_path s |- _ => rewrite <- H end; puts|match goal with H : _ = s_type s |- _ => rewrite <- H end|].
Lemma small_loads p z : In p [p7; p8; p9] -> loads unE ascii foldA 6 (VInt z) (JNum (text p)) (VInt (intval p)).
Proof. intros [<-|[<-|[<-|[]]]]; (eapply ld_int; [reflexivity|parts_ok|vm_compute; split; [discriminate|reflexivity]]). Qed.
Lemma ex78_next : loads unE ascii foldA 9 z78 (JObj [(str "A", JStr (str "c")); (str "r", JArr [JNum (text p7); JNum (text p8); JNum (text p9)])]) v78n.
Proof.
  destruct (un_std_fields 9 fs9u _ eq_refl ltac:(vm_compute; reflexivity)) as (ss & F & Sd). stood F.
  eapply ld_struct; [reflexivity|exact Sd|]. lfield s; [apply str_loads; reflexivity|]. lfield s6; [|apply lf_nil].
  apply (ld_array_long _ _ _ _ 2 6 [VInt 0; VInt 0] [JNum (text p7); JNum (text p8)] [JNum (text p9)] [VInt 7; VInt 8]); [reflexivity|reflexivity|]. apply le_cons; [apply (small_loads p7); cbn; tauto|]. apply le_cons; [apply (small_loads p8); cbn; tauto|]. apply le_nil.
Qed.
Lemma ex78_loads : loads unE ascii foldA 9 z78 j78 v78.
Proof.
  destruct (un_std_fields 9 fs9u _ eq_refl ltac:(vm_compute; reflexivity)) as (ss & F & Sd). stood F.
  eapply ld_struct; [reflexivity|exact Sd|]. lfield s; [eapply ld_string; [reflexivity|apply means_string; [exact an_means|reflexivity]]|]. lfield s0; [apply str_loads; reflexivity|].
  lfield s2; [eapply ld_ptr_new; [reflexivity|discriminate|exact z78_blank|exact ex78_next]|].
  lfield s3; [eapply (ld_slice _ _ _ _ tString _ _ [VString []; VString []]); [reflexivity|left; reflexivity|repeat constructor|repeat (apply le_cons; [apply str_loads; reflexivity|]); apply le_nil]|].
  lfield s4; [eapply ld_iface; [reflexivity|discriminate|]|].
  { pose (g := Some (tSliceI, VSlice (Some (map VIface [Some (tFloat64, VFloat (FFin false (2 ^ 52) (-53))); None], [])))). apply (gn_obj _ [(str "k", g)] [(str "k", g)]).
    - constructor; [|constructor]. split; [apply plain_string; reflexivity|]. cbn [snd]. apply (gn_arr _ [Some (tFloat64, VFloat (FFin false (2 ^ 52) (-53))); None]). constructor; [|constructor; [constructor|constructor]]. apply gn_num; [parts_ok| |exact I].
      eapply exact_rounded; [vm_compute; reflexivity|vm_compute; repeat split; try discriminate; left; discriminate|vm_compute; reflexivity].
    - repeat constructor. intros [].
    - intros k x. cbn [In]. split; [intros [X|[]]; injection X as <- <-; exists [], []; split; [reflexivity|intros []]|]. intros (a & b & E & _). left. destruct a as [|a1 a]; [injection E as E1 E2 _; congruence|]. injection E as _ E. destruct a; discriminate E. }
  lfield s5; [eapply (ld_float64 _ _ _ _ _ pMinus (FFin true (5 * 2 ^ 50) (-51))); [reflexivity|parts_ok| |exact I]|].
  { eapply (exact_rounded pMinus); [vm_compute; reflexivity|vm_compute; repeat split; try discriminate; left; discriminate|vm_compute; reflexivity]. }
  eapply lf_other; [apply plain_string; reflexivity| |apply lf_nil].
  intros d C. assert (X : In d [s; s0; s1; s2; s3; s4; s5; s6] /\ foldA (s_name d) (str "zz")). { destruct C as [(I & ->)|(_ & a & b & -> & Fo & _)]; split; try assumption; [reflexivity|apply in_elt]. }
  destruct X as (I & Fo). unfold foldA in Fo. cbn [In] in I. repeat (destruct I as [<-|I]; [match goal with H : _ = s_name ?x, G : context [s_name ?x] |- _ => rewrite <- H in G end; vm_compute in Fo; discriminate Fo|]). destruct I.
Qed.
Lemma ex78_lem : unstd_world unE ascii /\ target unE 10 9 /\ ~ hazard unE decodeOptions 9 /\ blank unE 9 z78 /\ well_text s78 j78 /\ well unE ascii foldA j78 /\ loads unE ascii foldA 9 z78 j78 v78 /\
  Unmarshal unE 0 s78 10 (VPtr (Some z78)) = Ok (VPtr (Some v78), None).
Proof.
  split; [exact un_world|]. split; [exact tgu9|]. split; [apply un_hazard; cbn; tauto|]. split; [exact z78_blank|]. split; [exact j78_text|]. split; [exact j78_well|]. split; [exact ex78_loads|exact ex78_stores].
Qed.

(* ---- differences ---- *)
Lemma text_of j s : rfc_value j s -> json_text s j.
Proof. intro V. exists [], s, []. rewrite app_nil_r. repeat split; auto; constructor. Qed.
Lemma of_text s j : (forall c, In c s -> ~ ws_byte c) -> json_text s j -> rfc_value j s.
Proof.
  intros N (s1 & w & s2 & -> & W1 & W2 & V). destruct s1 as [|c s1]; [|inversion W1; subst; exfalso; eapply N; [left; reflexivity|assumption]]. destruct s2 as [|c s2]; [rewrite app_nil_r; exact V|].
  inversion W2; subst. exfalso. eapply N; [|eassumption]. cbn [app]. apply in_app_iff. right. left. reflexivity.
Qed.
Lemma fields_equal l l' : equals (VStruct l) (VStruct l') -> Forall2 equals l l'.
Proof. intro H. inversion H; subst; [apply equals_each|assumption]. Qed.
Lemma ints_equal a b : equals (VInt a) (VInt b) -> a = b.
Proof. intro H. inversion H. reflexivity. Qed.
Lemma other_if E letter fold s t e v j v' : json_text s j -> loads E letter fold e v j v' -> (forall v'', Unmarshal E 0 s t (VPtr (Some v)) = Ok (VPtr (Some v''), None) -> equals v'' v' -> False) -> stores_other E letter fold s t e v.
Proof. intros A B C. exists j, v'. split; [exact A|]. split; [exact B|]. intros v'' U X. exact (C v'' U X). Qed.
Ltac differs := let U := fresh in let X := fresh in intros ? U X; vm_compute in U; try discriminate U; injection U as <-; first [apply ints_equal in X; discriminate X|inversion X; subst; discriminate|apply fields_equal in X; inversion X; subst; match goal with H : equals (VInt _) (VInt _) |- _ => apply ints_equal in H; discriminate H end].
Lemma digits_number p : integer_text p -> rfc_int (pint p) -> rfc_value (JNum (text p)) (text p).
Proof. intros T R. apply v_num. apply rfc_parts; [exact (proj1 T)|exact R]. Qed.
Definition p1 : NumSpec.parts := mkParts false (str "1") None None.
Definition z7 : gv := VStruct [VInt 0; VString []].
Lemma one_int : rfc_int (str "1").
Proof. apply int_nz; [vm_compute; split; discriminate|constructor]. Qed.
Lemma one_loads z : loads unE ascii foldA 6 (VInt z) (JNum (text p1)) (VInt 1).
Proof. apply (ld_int unE ascii foldA 6 64 z p1); [reflexivity|parts_ok|vm_compute; split; [discriminate|reflexivity]]. Qed.
Lemma un_program : wf_types unE /\ embeds_structs unE /\ std_structs unE ascii.
Proof. split; [exact un_wf|]. split; [exact un_embeds|exact un_std]. Qed.
Lemma z7_typed : typed unE 7 z7.
Proof. apply blank_typed; [exact un_wf|]. apply un_blank; [lia|vm_compute; reflexivity]. Qed.
Lemma member_text k v : rfc_chars k -> value ws rfc_chars rfc_chars rfc_number v (print v) -> rfc_value (JObj [(k, v)]) (print (JObj [(k, v)])).
Proof.
  intros K V. cbn [print map join fst snd]. apply v_obj. pose proof (mem_one ws rfc_chars rfc_chars rfc_number [] k [] [] v (print v) []) as X. cbn [app] in X. rewrite app_nil_r in X. apply X; auto; constructor.
Qed.
Lemma C78_case_lem : exists E s t e v, (wf_types E /\ embeds_structs E /\ std_structs E ascii) /\ target E t e /\ blank E e v /\ s = str "{""a"":1}" /\ kindOf E e = Some (KStruct [fld (str "A") 6; fld (str "B") tString]) /\ stores_other E ascii foldA s t e v.
Proof.
  exists unE, (str "{""a"":1}"), 12, 7, z7. split; [exact un_program|]. split; [exact tgu7|]. split; [apply un_blank; [lia|vm_compute; reflexivity]|]. split; [reflexivity|]. split; [reflexivity|].
  apply (other_if _ _ _ _ _ _ _ (JObj [(str "a", JNum (text p1))]) (VStruct [VInt 1; VString []])); [apply text_of; apply (member_text (str "a") (JNum (text p1))); [apply chars_ok; reflexivity|apply (digits_number p1); [parts_ok|exact one_int]]| |differs].
  destruct (un_std_fields 7 fs7 _ eq_refl ltac:(vm_compute; reflexivity)) as (ss & F & Sd). stood F. eapply ld_struct; [reflexivity|exact Sd|].
  eapply (lf_field _ _ _ _ _ _ _ _ _ s); [apply plain_string; reflexivity| |assumption|match goal with H : _ = s_path s |- _ => rewrite <- H end; puts|match goal with H : _ = s_type s |- _ => rewrite <- H end; apply one_loads|apply lf_nil].
  right. split; [cbn [map In]; intros [X|[X|[]]]; match goal with H : _ = s_name ?x, G : s_name ?x = _ |- _ => rewrite <- H in G end; discriminate X|].
  exists [], [s0]. split; [reflexivity|]. split; [match goal with H : _ = s_name s |- _ => rewrite <- H end; reflexivity|intros d []].
Qed.
Lemma C78_key_lem : exists E s t e v, (wf_types E /\ embeds_structs E /\ std_structs E ascii) /\ target E t e /\ blank E e v /\ s = str "{""\u0041"":1}" /\ kindOf E e = Some (KStruct [fld (str "A") 6; fld (str "B") tString]) /\ stores_other E ascii foldA s t e v.
Proof.
  exists unE, (str "{""\u0041"":1}"), 12, 7, z7. split; [exact un_program|]. split; [exact tgu7|]. split; [apply un_blank; [lia|vm_compute; reflexivity]|]. split; [reflexivity|]. split; [reflexivity|].
  assert (Hx : hexdigit x30 /\ hexdigit x34 /\ hexdigit x31) by (repeat split; left; vm_compute; split; discriminate). destruct Hx as (H0 & H4 & H1).
  apply (other_if _ _ _ _ _ _ _ (JObj [(str "\u0041", JNum (text p1))]) (VStruct [VInt 1; VString []])); [apply text_of; apply (member_text (str "\u0041") (JNum (text p1))); [apply chars_u; auto; constructor|apply (digits_number p1); [parts_ok|exact one_int]]| |differs].
  destruct (un_std_fields 7 fs7 _ eq_refl ltac:(vm_compute; reflexivity)) as (ss & F & Sd). stood F. eapply ld_struct; [reflexivity|exact Sd|].
  eapply (lf_field _ _ _ _ _ (str "A") _ _ _ s); [|left; split; [left; reflexivity|symmetry; assumption]|assumption|match goal with H : _ = s_path s |- _ => rewrite <- H end; puts|match goal with H : _ = s_type s |- _ => rewrite <- H end; apply one_loads|apply lf_nil].
  apply means_string; [|reflexivity]. apply (m_u x30 x30 x34 x31 [] []); auto; [left; reflexivity|constructor].
Qed.
Lemma C78_null_lem : exists E t e v, (wf_types E /\ embeds_structs E /\ std_structs E ascii) /\ target E t e /\ ~ hazard E decodeOptions e /\ typed E e v /\ kindOf E e = Some (KInt 64) /\ stores_other E ascii foldA (str "null") t e v.
Proof.
  exists unE, 13, 6, (VInt 5). split; [exact un_program|]. split; [exact tgu6|]. split; [apply un_hazard; cbn; tauto|]. split; [ty|]. split; [reflexivity|].
  apply (other_if _ _ _ _ _ _ _ JNull (VInt 5)); [apply text_of; constructor|apply ld_null; exact I|differs].
Qed.
Definition pBig : NumSpec.parts := mkParts false (str "9007199254740993") None None.
Lemma big_int ds : forallb (fun c => (48 <=? bN c)%N && (bN c <=? 57)%N) ds = true -> hd_error ds <> Some x30 -> ds <> [] -> rfc_int ds.
Proof.
  intros H N Ne. assert (F : Forall digit ds). { rewrite forallb_forall in H. rewrite Forall_forall. intros c I. specialize (H c I). apply andb_prop in H as (A & B). apply N.leb_le in A, B. split; assumption. }
  destruct ds as [|d ds]; [contradiction|]. inversion F as [|? ? Hd Fd]; subst. apply int_nz; [|exact Fd]. destruct Hd as (A & B). split; [|exact B]. destruct (N.eq_dec (bN d) 48) as [E|E]; [|lia]. exfalso. apply N. cbn. rewrite <- (Nb_bN d), E. reflexivity.
Qed.
Lemma C78_int_lem : exists E t e v, (wf_types E /\ embeds_structs E /\ std_structs E ascii) /\ target E t e /\ ~ hazard E decodeOptions e /\ blank E e v /\ kindOf E e = Some (KInt 64) /\ stores_other E ascii foldA (str "9007199254740993") t e v.
Proof.
  exists unE, 13, 6, (VInt 0). split; [exact un_program|]. split; [exact tgu6|]. split; [apply un_hazard; cbn; tauto|]. split; [apply un_blank; [lia|vm_compute; reflexivity]|]. split; [reflexivity|].
  apply (other_if _ _ _ _ _ _ _ (JNum (text pBig)) (VInt (intval pBig))); [apply text_of; apply (digits_number pBig); [parts_ok|apply big_int; [vm_compute; reflexivity|discriminate|discriminate]]| |differs].
  apply (ld_int unE ascii foldA 6 64 0 pBig); [reflexivity|parts_ok|vm_compute; split; [discriminate|reflexivity]].
Qed.
Definition p300 : NumSpec.parts := mkParts false (str "300") None None.
Lemma no_ws s : forallb (fun c => negb (existsb (beqb c) [x20; x09; x0a; x0d])) s = true -> forall c, In c s -> ~ ws_byte c.
Proof.
  intros H c I W. rewrite forallb_forall in H. specialize (H c I). apply negb_true_iff in H. assert (existsb (beqb c) [x20; x09; x0a; x0d] = true); [|congruence]. apply existsb_exists. exists c. split; [|apply beqb_true; reflexivity]. destruct W as [->|[->|[->| ->]]]; cbn; tauto.
Qed.
Lemma C78_range_lem : exists E t e v, (wf_types E /\ embeds_structs E /\ std_structs E ascii) /\ target E t e /\ ~ hazard E decodeOptions e /\ blank E e v /\ kindOf E e = Some (KInt 8) /\ stores_more E ascii foldA (str "300") t e v.
Proof.
  exists unE, 15, 14, (VInt 0). split; [exact un_program|]. split; [exact tgu14|]. split; [apply un_hazard; cbn; tauto|]. split; [apply un_blank; [lia|vm_compute; reflexivity]|]. split; [reflexivity|]. split; [|eexists; vm_compute; reflexivity].
  intros j v' T L. apply of_text in T; [|apply no_ws; reflexivity]. assert (V : rfc_value (JNum (text p300)) (str "300")) by (apply (digits_number p300); [parts_ok|apply big_int; [vm_compute; reflexivity|discriminate|discriminate]]).
  rewrite (rfc_unique _ _ _ T V) in L. inversion L as [| | |? bits z p K Ip R Q| | | | |? ? ? ? K| |? ? ? ? ? K|? ? ? ? ? K| | | | | | | |]; subst; try discriminate K. injection K as <-.
  assert (p = p300) as -> by (apply text_one; [exact (proj1 Ip)|parts_ok|assumption]). vm_compute in R. destruct R as (_ & R). discriminate R.
Qed.
Lemma C78_rest_lem : exists E t e v, (wf_types E /\ embeds_structs E /\ std_structs E ascii) /\ target E t e /\ ~ hazard E decodeOptions e /\ blank E e v /\ kindOf E e = Some (KInt 64) /\ stores_more E ascii foldA (str "1]") t e v.
Proof.
  exists unE, 13, 6, (VInt 0). split; [exact un_program|]. split; [exact tgu6|]. split; [apply un_hazard; cbn; tauto|]. split; [apply un_blank; [lia|vm_compute; reflexivity]|]. split; [reflexivity|]. split; [|eexists; vm_compute; reflexivity].
  intros j v' T _. apply of_text in T; [|apply no_ws; reflexivity]. inversion T as [w Hw Ej Ew|w Hw Ej Ew| | | | | | |]; subst. apply rfc_lenient_number in Hw. destruct Hw as (c & w' & Eq & _ & Hw). injection Eq as <- <-. rewrite Forall_forall in Hw. apply (Hw x5d); [left; reflexivity|right; right; left; reflexivity].
Qed.
Lemma C78_string_lem : exists E t e v, (wf_types E /\ embeds_structs E /\ std_structs E ascii) /\ target E t e /\ ~ hazard E decodeOptions e /\ blank E e v /\ kindOf E e = Some KString /\ stores_other E ascii foldA (str """\\""") t e v.
Proof.
  exists unE, 16, tString, (VString []). split; [exact un_program|]. split; [exact tguS|]. split; [apply un_hazard; cbn; tauto|]. split; [apply un_blank; [apply Nat.ltb_lt; reflexivity|vm_compute; reflexivity]|]. split; [reflexivity|].
  apply (other_if _ _ _ _ _ _ _ (JStr (str "\\")) (VString (str "\"))); [apply text_of; apply (v_str _ _ _ _ (str "\\")); apply chars_esc; [cbn; auto|constructor]| |differs].
  eapply ld_string; [reflexivity|]. apply means_string; [|reflexivity]. apply (m_escape x5c x5c [] []); constructor.
Qed.

(* 6 uint8, 7 []uint8, 8 *[]uint8, 9 *map[string]interface{}, 10 *float64 *)
Definition byE : env := envOf [plainT (KUint 8); plainT (KSlice 6); plainT (KPtr 7); plainT (KPtr tMapSI); plainT (KPtr tFloat64)].
Lemma by_kind t k : kindOf byE t = Some k -> In t (seq 0 11).
Proof. intro K. apply kindOf_lt in K. apply in_seq. exact (conj (Nat.le_0_l _) K). Qed.
Ltac by_types K := let J := fresh in pose proof (by_kind _ _ K) as J; cbn [seq In] in J; repeat (destruct J as [<-|J]); [..|contradiction J]; cbv in K; try discriminate K; injection K as <-.
Lemma by_wf : wf_types byE.
Proof. apply (check_wf byE (fun _ => 0)); [intro; cbn; lia|vm_compute; reflexivity]. Qed.
Lemma by_program : wf_types byE /\ embeds_structs byE /\ std_structs byE ascii.
Proof. split; [exact by_wf|]. split; [apply check_embeds; vm_compute; reflexivity|]. intros t fs K. by_types K. Qed.
Lemma by_acyclic : forall t, ~ cyclic byE decodeOptions t.
Proof. intros t C. destruct (cyclic_step _ _ _ C) as (u & (fs & f & key & h & K & _) & _). by_types K. Qed.
Lemma by_target t e : kindOf byE t = Some (KPtr e) -> decodable byE decodeOptions e -> (exists r, newCodec byE decodeOptions (IDec e) = Ok (Some r)) -> target byE t e.
Proof.
  intros K Dc (r & B). split; [|split; [exact Dc|split; [exact by_acyclic|split]]].
  - by_types K; eexists; repeat split; reflexivity.
  - exists (fun t => match t with 8 | 9 | 10 => 1 | _ => 0 end). split; [intro u; change (length (types byE)) with 11; do 11 (destruct u as [|u]; [lia|]); lia|]. clear. intros t e K. by_types K; cbv; lia.
  - intros x Ux Lx. destruct (Dc e (rd_here _ _ _)) as (X & Ty & _). destruct (C54_lem byE decodeOptions (IDec e) by_wf by_acyclic (kindOf_lt _ _ _ (typeOf_kindOf _ _ _ Ty))) as (b & Bd & Iff).
    rewrite B in Bd. injection Bd as <-. enough (Some r = None) by discriminate. apply Iff. eauto.
Qed.
Ltac decs_by L := let R := fresh in let J := fresh in intros ? R; pose proof (reads_in byE decodeOptions L ltac:(vm_compute; reflexivity) _ _ R ltac:(cbn; tauto)) as J; cbn [In] in J; repeat (destruct J as [<-|J]); [..|contradiction J];
  (eexists; split; [reflexivity|]; split; [repeat split; reflexivity|]); exact Logic.I.
Lemma by_blank t z : t < 11 -> zero byE t = z -> blank byE t z.
Proof. intros L <-. apply zero_good; [exact by_wf|exact L]. Qed.
Lemma by_hazard t : In t [6; 7; tFloat64] -> ~ hazard byE decodeOptions t.
Proof. intros I (u & R & H). pose proof (reads_in byE decodeOptions [6; 7; tFloat64] ltac:(vm_compute; reflexivity) _ _ R I) as J. cbn [In] in J. repeat (destruct J as [<-|J]); [..|contradiction J]; destruct H as [(k & e & K)|[N K]]; discriminate K. Qed.
Lemma C78_bytes_lem : exists E t e u v, (wf_types E /\ embeds_structs E /\ std_structs E ascii) /\ target E t e /\ ~ hazard E decodeOptions e /\ blank E e v /\ kindOf E e = Some (KSlice u) /\ kindOf E u = Some (KUint 8) /\ stores_other E ascii foldA (str """AQI=""") t e v.
Proof.
  exists byE, 8, 7, 6, (VSlice None). split; [exact by_program|]. split; [apply by_target; [reflexivity|decs_by [7; 6]|eexists; vm_compute; reflexivity]|]. split; [apply by_hazard; cbn; tauto|]. split; [apply by_blank; [lia|vm_compute; reflexivity]|]. split; [reflexivity|]. split; [reflexivity|].
  apply (other_if _ _ _ _ _ _ _ (JStr (str "AQI=")) (VSlice (Some ([VUint 1; VUint 2], [])))); [apply text_of; apply (v_str _ _ _ _ (str "AQI=")); apply chars_ok; reflexivity| |differs].
  apply (ld_bytes byE ascii foldA 7 6 None (str "AQI=") [1; 2]%Z); [reflexivity|reflexivity|change (base64 [1; 2]%Z) with (str "AQI="); apply plain_string; reflexivity|repeat constructor; lia].
Qed.
Lemma C78_map_lem : exists E t e v, (wf_types E /\ embeds_structs E /\ std_structs E ascii) /\ target E t e /\ blank E e v /\ kindOf E e = Some (KMap tString tIface) /\ stores_other E ascii foldA (str "{""k"":null}") t e v.
Proof.
  exists byE, 9, tMapSI, (VMap None). split; [exact by_program|]. split; [apply by_target; [reflexivity|decs_by [tMapSI; tString; tIface]|eexists; vm_compute; reflexivity]|]. split; [apply by_blank; [apply Nat.ltb_lt; reflexivity|vm_compute; reflexivity]|]. split; [reflexivity|].
  apply (other_if _ _ _ _ _ _ _ (JObj [(str "k", JNull)]) (VMap (Some [(VString (str "k"), VIface None)]))); [apply text_of; apply (member_text (str "k") JNull); [apply chars_ok; reflexivity|apply v_null]| |differs].
  eapply ld_map; [reflexivity|reflexivity|]. eapply lk_cons; [apply plain_string; reflexivity|eapply bl_iface; reflexivity|eapply ld_iface; [reflexivity|discriminate|constructor]|apply (pk_new [] (str "k") (VIface None)); intros []|apply lk_nil].
Qed.
Lemma C78_float_lem : exists E t e v, (wf_types E /\ embeds_structs E /\ std_structs E ascii) /\ target E t e /\ ~ hazard E decodeOptions e /\ blank E e v /\ kindOf E e = Some KFloat64 /\ stores_other E ascii foldA (str "0.99999999999999999999e0") t e v.
Proof.
  exists byE, 10, tFloat64, (VFloat zeroF). split; [exact by_program|]. split; [apply by_target; [reflexivity|decs_by [tFloat64]|eexists; vm_compute; reflexivity]|]. split; [apply by_hazard; cbn; tauto|]. split; [apply by_blank; [apply Nat.ltb_lt; reflexivity|vm_compute; reflexivity]|]. split; [reflexivity|].
  apply (other_if _ _ _ _ _ _ _ (JNum (text wrapped_frac)) (VFloat (FFin false 4503599627370496 (-52)))); [apply text_of; apply v_num; exact wrapped_frac_rfc| |intros v'' U X; vm_compute in U; injection U as <-; inversion X].
  assert (Sp : shape one_sign wrapped_frac) by parts_ok. eapply (ld_float64 _ _ _ _ _ wrapped_frac); [reflexivity|exact Sp| |exact I]. pose proof (strconv_rounded wrapped_frac Sp) as R. assert (Q : strconv_ParseFloat (text wrapped_frac) = FFin false 4503599627370496 (-52)) by (vm_compute; reflexivity). rewrite Q in R. exact R.
Qed.
