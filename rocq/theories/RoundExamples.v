(* Concrete types and values for C40. *)
From Coq Require Import Permutation.
From Verif Require Import FloatSpec NumSpec FmtSpec StrSpec Bytes Types JsonSpec Parser Doc DocSpec DocProofs DocDec DocExamples Strjson Float Num NumInt FmtThms Iface IfaceSpec Options Codec CodecSpec CodecMerge CodecBase CodecBuild CodecExamples ParserThms DecodeSpec DecodeTree DecodeThms DecodeExamples RoundSpec RoundThms.
Local Open Scope nat_scope.

(* 6 int64, 7 uint8, 8 []string, 9 [2]bool, 10 struct{A uint8},
   11 struct{T10; Name string "name"; Next *T11 ",omitempty"; N int64; F float64; L []string; B [2]bool; X interface{}},
   12 *T11, 13 *int64, 14 map[string]int64, 15 *T14, 16 *string, 17 *float64, 18 **int64, 19 ***int64, 20 *interface{}, 21 *[]string *)
Definition rndE : env := envOf [
  plainT (KInt 64); plainT (KUint 8); plainT (KSlice tString); plainT (KArray 2 tBool); plainT (KStruct [fld (str "A") 7]);
  plainT (KStruct [emb (str "T") 10; tagged (str "Name") tString (str "name"); tagged (str "Next") 12 (str ",omitempty"); fld (str "N") 6; fld (str "F") tFloat64; fld (str "L") 8; fld (str "B") 9; fld (str "X") tIface]);
  plainT (KPtr 11); plainT (KPtr 6); plainT (KMap tString 6); plainT (KPtr 14); plainT (KPtr tString); plainT (KPtr tFloat64); plainT (KPtr 13); plainT (KPtr 18); plainT (KPtr tIface); plainT (KPtr 8)].
Lemma rnd_kind t k : kindOf rndE t = Some k -> In t (seq 0 22).
Proof. intro K. apply kindOf_lt in K. apply in_seq. exact (conj (Nat.le_0_l _) K). Qed.
Ltac rnd_types K := let J := fresh in pose proof (rnd_kind _ _ K) as J; cbn [seq In] in J; repeat (destruct J as [<-|J]); [..|contradiction J]; cbv in K; try discriminate K; injection K as <-.
Lemma rnd_wf : wf_types rndE.
Proof.
  split; [|split].
  - intros t k u K I. change (length (types rndE)) with 22%nat. rnd_types K; cbn in I; intuition (subst; unfold tString, tIface, tMapSI, tBool, tFloat64; lia).
  - intros t bits [K|K]; rnd_types K; cbn; auto.
  - exists (fun t => match t with 9 => 1 | 10 => 1 | 11 => 2 | _ => 0 end)%nat. split.
    + intro t. change (length (types rndE)) with 22%nat. do 22 (destruct t as [|t]; [lia|]). lia.
    + intros t k u K I. rnd_types K; cbn in I; intuition (subst; unfold tString, tIface, tMapSI, tBool, tFloat64; lia).
Qed.
Lemma rnd_embeds : embeds_structs rndE.
Proof.
  intros t fs f e K I A Ke. rnd_types K;
    cbn in I; intuition (subst; cbn in A; try discriminate; cbv in Ke; try discriminate); injection Ke as <-; eexists; cbv; reflexivity.
Qed.
Lemma rnd_acyclic : forall t, ~ cyclic rndE decodeOptions t.
Proof.
  intros t C. destruct (cyclic_step _ _ _ C) as (u & (fs & f & key & h & K & _) & _). assert (S : isStruct rndE t = true) by (apply isStruct_iff; eauto).
  apply (structFields_total_lem _ _ _ S) in C. rnd_types K; vm_compute in C; discriminate C.
Qed.
Lemma rnd_pointers : no_pointer_loop rndE.
Proof.
  exists (fun t => match t with 12 | 13 | 15 | 16 | 17 | 20 | 21 => 1 | 18 => 2 | 19 => 3 | _ => 0 end). split.
  - intro t. change (length (types rndE)) with 22%nat. do 22 (destruct t as [|t]; [lia|]). lia.
  - intros t e K. rnd_types K; lia.
Qed.
Lemma rnd_fields : forall t, isStruct rndE t = true -> exists cs, structFields rndE defaultOptions t = Ok cs /\
  Forall (fun c => rfc_chars (ckey c) /\ (N.land (chints c) hintRaw = hintRaw -> N.land (chints c) hintHTML = hintHTML)) cs.
Proof.
  assert (R : forall s, forallb (fun c => (32 <=? bN c)%N && negb (beqb c x22) && negb (beqb c x5c)) s = true -> rfc_chars s).
  { induction s as [|c s IH]; cbn; intro H; [constructor|]. apply andb_prop in H as [H Hs]. apply andb_prop in H as [H H3]. apply andb_prop in H as [H1 H2].
    apply chars_plain; [apply N.leb_le; exact H1|intros ->; discriminate|intros ->; discriminate|auto]. }
  intros t S. destruct (proj1 (isStruct_iff _ _) S) as (fs & K). rnd_types K; eexists; (split; [vm_compute; reflexivity|]);
    repeat (constructor; [split; [apply R; vm_compute; reflexivity|vm_compute; discriminate]|]); constructor.
Qed.
Lemma rnd_env : go_env rndE.
Proof.
  split; [exact rnd_wf|]. split; [exact rnd_embeds|]. split; [exact exact_spec|]. split; [intros b m; apply Permutation_refl|].
  intros t cs c F I. assert (S : isStruct rndE t = true).
  { unfold structFields in F. change (length (types rndE)) with 22%nat in F. cbn [merge] in F. unfold isStruct. destruct (typeOf rndE t) as [T|]; [|discriminate]. destruct (tkind T); auto; discriminate. }
  destruct (rnd_fields t S) as (cs' & F' & H). assert (cs' = cs) by congruence. subst. rewrite Forall_forall in H. apply H. exact I.
Qed.
Ltac rnd_reads L R := let I := fresh in pose proof (reads_in rndE defaultOptions L ltac:(vm_compute; reflexivity) _ _ R ltac:(cbn; tauto)) as I; cbn [In] in I; repeat (destruct I as [<-|I]); [..|contradiction I].
Lemma rnd_two_way L t pt : kindOf rndE pt = Some (KPtr t) -> In t L -> forallb (fun t => forallb (fun u => existsb (Nat.eqb u) L) (next rndE defaultOptions t)) L = true ->
  (exists r, newCodec rndE decodeOptions (IDec t) = Ok (Some r)) -> two_way rndE pt t.
Proof.
  intros K I C (r & B). assert (Lt : t < 22) by (apply (kindOf_lt rndE t (match kindOf rndE t with Some k => k | None => KOther end)); rnd_types K; reflexivity).
  assert (R : forall u, reads rndE defaultOptions t u -> u < 22).
  { intros u R. assert (X : In u (seq 0 22)); [|apply in_seq in X; lia]. eapply (reads_in rndE defaultOptions (seq 0 22)); [vm_compute; reflexivity|exact R|apply in_seq; lia]. }
  assert (Dc : decodable rndE decodeOptions t).
  { intros u Ru. specialize (R u Ru). do 22 (destruct u as [|u]; [eexists; split; [reflexivity|]; split; [repeat split; reflexivity|]; try exact Logic.I; (eexists; split; [vm_compute; reflexivity|]; repeat constructor; discriminate)|]). lia. }
  split; [|split].
  - split; [|split; [exact Dc|split; [exact rnd_acyclic|split; [exact rnd_pointers|]]]].
    + rnd_types K; eexists; repeat split; reflexivity.
    + intros x Ux Lx. destruct (C54_lem rndE decodeOptions (IDec t) rnd_wf rnd_acyclic) as (b & Bd & Iff); [exact Lt|]. rewrite B in Bd. injection Bd as <-. enough (Some r = None) by discriminate. apply Iff. eauto.
  - intros u Ru. specialize (R u Ru). do 22 (destruct u as [|u]; [split; [eexists; repeat split; reflexivity|]; split;
      [intros T Ty; injection Ty as <-; cbn; repeat split; try (intros X Ty; injection Ty as <-; reflexivity)
      |intros cs F; vm_compute in F; try discriminate F; injection F as <-; cbn; repeat (constructor; [cbn; intuition discriminate|]); constructor]|]). lia.
  - intros T Ty _. do 22 (destruct t as [|t]; [injection Ty as <-; repeat split|]). lia.
Qed.
Ltac rnd L := apply (rnd_two_way L); [reflexivity|cbn; tauto|vm_compute; reflexivity|eexists; vm_compute; reflexivity].
Lemma r12 : two_way rndE 12 11. Proof. rnd [11; 12; 7; tString; 6; tFloat64; 8; 9; tBool; tIface]. Qed.

Definition half3 : float := FFin false (3 * 2 ^ 51)%Z (-52)%Z.
Lemma half3_writes : exists s, writes rndE half3 s /\ ParseFloat s = half3.
Proof.
  eexists. split; [split; [|split]|].
  - vm_compute; repeat split; try discriminate; left; discriminate.
  - exists (to32 half3). split; [right; split; [reflexivity|]; apply to32_rounded; vm_compute; discriminate|vm_compute; exact Logic.I].
  - vm_compute. reflexivity.
  - vm_compute. reflexivity.
Qed.
Lemma half3_kept : kept64 rndE half3.
Proof. destruct half3_writes as (s & Ws & P). exists s, half3. split; [exact Ws|]. split; [left; split; [exact P|discriminate]|reflexivity]. Qed.
Lemma half3_go : go_kept rndE (VIface (Some (tFloat64, VFloat half3))).
Proof. destruct half3_writes as (s & Ws & P). apply gk_float with s; [exact Ws|rewrite P; discriminate|rewrite P; reflexivity]. Qed.
Definition inner40 : gv := VStruct [VStruct [VUint 0]; VString []; VPtr None; VInt 0; VFloat zeroF; VSlice None; VArray [VBool false; VBool false]; VIface None].
Definition ex40 : gv := VStruct [VStruct [VUint 200]; VString (str "a""b"); VPtr (Some inner40); VInt (- 2 ^ 62)%Z; VFloat half3; VSlice (Some ([VString (str "x"); VString []], [VString (str "old")]));
  VArray [VBool true; VBool false]; VIface (Some (tMapSI, VMap (Some [(VString (str "k"), VIface (Some (tSliceI, VSlice (Some ([VIface None; VIface (Some (tFloat64, VFloat half3))], [])))))])))].
Lemma zero_kept : kept64 rndE zeroF.
Proof.
  eexists. exists (FFin false 0 (-1074)). split; [split; [|split]|].
  - vm_compute; repeat split; try discriminate. right; reflexivity.
  - exists (to32 zeroF). split; [right; split; [reflexivity|]; apply to32_rounded; vm_compute; discriminate|vm_compute; exact Logic.I].
  - vm_compute. reflexivity.
  - split; [left; vm_compute; split; [reflexivity|discriminate]|reflexivity].
Qed.

Lemma ascii_utf8 s : forallb (fun c => (bN c <? 128)%N) s = true -> valid_utf8 s.
Proof.
  intro H. exists (map bN s). induction s as [|c s IH]; [split; [constructor|reflexivity]|]. cbn in H. apply andb_prop in H as [Hc Hs]. destruct (IH Hs) as [F E]. apply N.ltb_lt in Hc. split.
  - constructor; [|exact F]. unfold scalar. lia.
  - cbn. unfold utf8s in *. cbn. rewrite <- E. unfold utf8. destruct (N.ltb_spec (bN c) 128); [|lia]. cbn. rewrite Nb_bN. reflexivity.
Qed.
Lemma ends s c : last s c <> x5c -> s <> [] -> plain_end s.
Proof. intros L Ns. right. intros u ->. apply L. apply last_last. Qed.
Ltac asciistr := apply ascii_utf8; vm_compute; reflexivity.
Ltac plainstr := first [left; cbn; tauto | right; let u := fresh in let H := fresh in intros u H; apply (f_equal (@rev byte)) in H; rewrite rev_app_distr in H; cbn in H; discriminate H].
Lemma ex40_typed : typed rndE 11 ex40.
Proof. unfold ex40, inner40. ty; try (eapply t_uint; [reflexivity|vm_compute; split; [discriminate|reflexivity]]). Qed.
Lemma far : float_int (- 2 ^ 62).
Proof. exists (FFin true (2 ^ 52) 10). split; [vm_compute; repeat split; try discriminate|vm_compute; reflexivity]. Qed.
Lemma rnd_survives_struct t fs cs l : kindOf rndE t = Some (KStruct fs) -> structFields rndE defaultOptions t = Ok cs ->
  Forall (fun c => exists x, reaches (VStruct l) (cindex c) x /\ survives rndE defaultOptions (ctype c) x) cs -> survives rndE defaultOptions t (VStruct l).
Proof.
  intros K F H. eapply sv_struct; [exact K|exact F|]. intros c x I R. rewrite Forall_forall in H. destruct (H c I) as (y & R' & Sv). rewrite (reaches_same _ _ _ _ R R'). exact Sv.
Qed.
Ltac sv_scalar := first [ apply sv_bool; reflexivity | eapply sv_int; [reflexivity|first [exact far|apply rep53; vm_compute; discriminate]] | eapply sv_uint; [reflexivity|apply rep53; vm_compute; discriminate]
  | apply sv_float64; [reflexivity|first [exact half3_kept|exact zero_kept]] | apply sv_string; [reflexivity|asciistr|plainstr] | eapply sv_ptr_nil; reflexivity | eapply sv_slice_nil; reflexivity
  | eapply sv_slice; [reflexivity|] | eapply sv_array; [reflexivity|] | apply Forall_cons | apply Forall_nil | apply sv_iface, gk_nil ].
Ltac reach := repeat (first [eapply rc_here|eapply (rc_field _ 0); [reflexivity|]|eapply (rc_field _ 1); [reflexivity|]|eapply (rc_field _ 2); [reflexivity|]|eapply (rc_field _ 3); [reflexivity|]
  |eapply (rc_field _ 4); [reflexivity|]|eapply (rc_field _ 5); [reflexivity|]|eapply (rc_field _ 6); [reflexivity|]|eapply (rc_field _ 7); [reflexivity|]]).
Lemma ex40_survives : survives rndE defaultOptions 11 ex40.
Proof.
  assert (IN : survives rndE defaultOptions 11 inner40).
  { eapply rnd_survives_struct; [reflexivity|vm_compute; reflexivity|]. repeat (apply Forall_cons; [eexists; split; [cbn [cindex]; reach|cbn [ctype]; repeat sv_scalar]|]); apply Forall_nil. }
  eapply rnd_survives_struct; [reflexivity|vm_compute; reflexivity|]. repeat (apply Forall_cons; [eexists; split; [cbn [cindex]; reach|cbn [ctype]; repeat sv_scalar]|]); try apply Forall_nil.
  - eapply sv_ptr; [reflexivity|discriminate|discriminate|exact IN].
  - apply sv_iface. apply gk_map; [repeat constructor; cbn; tauto|]. constructor; [|constructor]. split; [eexists; split; [reflexivity|vm_compute; reflexivity]|]. cbn [snd].
    apply gk_slice. repeat (apply Forall_cons); try apply Forall_nil; [apply gk_nil|apply half3_go].
Qed.
Lemma h11 : ~ hazard rndE defaultOptions 11.
Proof. intros (u & R & H). rnd_reads [11; 12; 7; tString; 6; tFloat64; 8; 9; tBool; tIface] R; destruct H as [(k & e & K)|[N K]]; try discriminate K; congruence. Qed.
Lemma blank11 : blank rndE 11 inner40.
Proof.
  unfold inner40. repeat (first [eapply bl_bool; reflexivity|eapply bl_int; reflexivity|eapply bl_uint; reflexivity|eapply bl_float; right; reflexivity|eapply bl_string; reflexivity|eapply bl_iface; reflexivity
   |eapply bl_ptr; reflexivity|eapply bl_slice; reflexivity|eapply bl_array; [reflexivity|reflexivity|]|eapply bl_struct; [reflexivity|]|constructor]).
Qed.
Lemma ex40_lem : go_env rndE /\ two_way rndE 12 11 /\ ~ hazard rndE defaultOptions 11 /\ typed rndE 11 ex40 /\ survives rndE defaultOptions 11 ex40 /\ ex40 <> VPtr None /\ typed rndE 11 inner40 /\ blank rndE 11 inner40 /\
  exists out v', Marshal rndE (Some (11, ex40)) = Ok (out, None) /\ Unmarshal rndE 0 out 12 (VPtr (Some inner40)) = Ok (VPtr (Some v'), None) /\ v' = VStruct [VStruct [VUint 200]; VString (str "a""b"); VPtr (Some (VStruct [VStruct [VUint 0]; VString []; VPtr None; VInt 0; VFloat (FFin false 0 (-1074)); VSlice (Some ([], [])); VArray [VBool false; VBool false]; VIface None])); VInt (- 2 ^ 62)%Z; VFloat half3; VSlice (Some ([VString (str "x"); VString []], []));
  VArray [VBool true; VBool false]; VIface (Some (tMapSI, VMap (Some [(VString (str "k"), VIface (Some (tSliceI, VSlice (Some ([VIface None; VIface (Some (tFloat64, VFloat half3))], [])))))])))].
Proof.
  split; [exact rnd_env|]. split; [exact r12|]. split; [exact h11|]. split; [exact ex40_typed|]. split; [exact ex40_survives|]. split; [discriminate|].
  split; [unfold inner40; ty; try (eapply t_uint; [reflexivity|vm_compute; split; [discriminate|reflexivity]])|]. split; [exact blank11|].
  set (r := Marshal rndE (Some (11, ex40))). vm_compute in r. eexists. eexists. split; [reflexivity|]. split; [vm_compute; reflexivity|vm_compute; reflexivity].
Qed.
Lemma r13 : two_way rndE 13 6. Proof. rnd [6]. Qed.
Lemma r15 : two_way rndE 15 14. Proof. rnd [14; 6; tString]. Qed.
Lemma r16 : two_way rndE 16 tString. Proof. rnd [tString]. Qed.
Lemma r17 : two_way rndE 17 tFloat64. Proof. rnd [tFloat64]. Qed.
Lemma r19 : two_way rndE 19 18. Proof. rnd [18; 13; 6]. Qed.
Lemma r20 : two_way rndE 20 tIface. Proof. rnd [tIface]. Qed.
Ltac blanks := repeat (first [eapply bl_bool; reflexivity|eapply bl_int; reflexivity|eapply bl_uint; reflexivity|eapply bl_float; right; reflexivity|eapply bl_string; reflexivity|eapply bl_iface; reflexivity
   |eapply bl_ptr; reflexivity|eapply bl_slice; reflexivity|eapply bl_map; reflexivity]).
Ltac rstart H := split; [exact rnd_env|]; split; [exact H|]; split; [ty|]; split; [ty|]; split; [blanks|]; split; [discriminate|].
(* the string of one backslash *)
Lemma C40_refuted_lem : exists E pt t v z out err, go_env E /\ two_way E pt t /\ typed E t v /\ typed E t z /\ blank E t z /\ v <> VPtr None /\
  kindOf E t = Some KString /\ Marshal E (Some (t, v)) = Ok (out, None) /\ Unmarshal E 0 out pt (VPtr (Some z)) = Ok (VPtr (Some z), Some err).
Proof. exists rndE, 16, tString, (VString [x5c]), (VString []), (str """\\"""). eexists. rstart r16. split; [reflexivity|]. split; [vm_compute; reflexivity|]. found. Qed.
(* a byte that is not UTF-8 *)
Lemma C40_utf8_lem : exists E pt t v z out v', go_env E /\ two_way E pt t /\ typed E t v /\ typed E t z /\ blank E t z /\ v <> VPtr None /\
  kindOf E t = Some KString /\ Marshal E (Some (t, v)) = Ok (out, None) /\ Unmarshal E 0 out pt (VPtr (Some z)) = Ok (VPtr (Some v'), None) /\ ~ agree E defaultOptions t v v'.
Proof.
  exists rndE, 16, tString, (VString [xff]), (VString []). eexists. exists (VString [xef; xbf; xbd]). rstart r16. split; [reflexivity|]. split; [vm_compute; reflexivity|]. split; [vm_compute; reflexivity|]. intro A. inversion A.
Qed.
(* 2^53 + 1 *)
Lemma C40_int_lem : exists E pt t v z out v', go_env E /\ two_way E pt t /\ typed E t v /\ typed E t z /\ blank E t z /\ v <> VPtr None /\
  kindOf E t = Some (KInt 64) /\ Marshal E (Some (t, v)) = Ok (out, None) /\ Unmarshal E 0 out pt (VPtr (Some z)) = Ok (VPtr (Some v'), None) /\ ~ agree E defaultOptions t v v'.
Proof.
  exists rndE, 13, 6, (VInt (2 ^ 53 + 1)), (VInt 0). eexists. exists (VInt (2 ^ 53)). rstart r13. split; [reflexivity|]. split; [vm_compute; reflexivity|]. split; [vm_compute; reflexivity|]. intro A. inversion A.
Qed.
(* 1 + 2^-52, written with 32 bits *)
Lemma C40_float_lem : exists E pt t v z out v', go_env E /\ two_way E pt t /\ typed E t v /\ typed E t z /\ blank E t z /\ v <> VPtr None /\
  kindOf E t = Some KFloat64 /\ (exists f, v = VFloat f /\ canonical b64 f /\ finite f) /\ Marshal E (Some (t, v)) = Ok (out, None) /\ Unmarshal E 0 out pt (VPtr (Some z)) = Ok (VPtr (Some v'), None) /\ ~ agree E defaultOptions t v v'.
Proof.
  exists rndE, 17, tFloat64, (VFloat (FFin false (2 ^ 52 + 1) (-52))), (VFloat zeroF). eexists. exists (VFloat (FFin false (2 ^ 52) (-52))). rstart r17. split; [reflexivity|].
  split; [eexists; split; [reflexivity|]; split; [vm_compute; repeat split; try discriminate; left; discriminate|exact Logic.I]|].
  split; [vm_compute; reflexivity|]. split; [vm_compute; reflexivity|]. intro A. inversion A; subst. discriminate.
Qed.
(* a map with an entry *)
Lemma C40_map_lem : exists E pt t v z out, go_env E /\ two_way E pt t /\ typed E t v /\ typed E t z /\ blank E t z /\ v <> VPtr None /\
  (exists k e, kindOf E t = Some (KMap k e)) /\ Marshal E (Some (t, v)) = Ok (out, None) /\ Unmarshal E 0 out pt (VPtr (Some z)) = Panic.
Proof.
  exists rndE, 15, 14, (VMap (Some [(VString (str "a"), VInt 1)])), (VMap None). eexists. rstart r15. split; [eexists; eexists; reflexivity|]. split; [vm_compute; reflexivity|]. vm_compute. reflexivity.
Qed.
(* a pointer to a nil pointer *)
Lemma C40_nil_lem : exists E pt t v z out, go_env E /\ two_way E pt t /\ typed E t v /\ typed E t z /\ blank E t z /\ v <> VPtr None /\
  v = VPtr (Some (VPtr None)) /\ Marshal E (Some (t, v)) = Ok (out, None) /\ Unmarshal E 0 out pt (VPtr (Some z)) = Ok (VPtr (Some (VPtr None)), None) /\ ~ agree E defaultOptions t v (VPtr None).
Proof.
  exists rndE, 19, 18, (VPtr (Some (VPtr None))), (VPtr None). eexists. rstart r19. split; [reflexivity|]. split; [vm_compute; reflexivity|]. split; [vm_compute; reflexivity|]. intro A. inversion A.
Qed.
(* an int64 in an interface comes back as a float64, and a key with a quote comes back escaped *)
Lemma C40_iface_lem : exists E pt v z out v', go_env E /\ two_way E pt tIface /\ typed E tIface v /\ typed E tIface z /\ blank E tIface z /\ v <> VPtr None /\
  v = VIface (Some (6, VInt 1)) /\ Marshal E (Some (tIface, v)) = Ok (out, None) /\ Unmarshal E 0 out pt (VPtr (Some z)) = Ok (VPtr (Some v'), None) /\ ~ agree E defaultOptions tIface v v'.
Proof.
  exists rndE, 20, (VIface (Some (6, VInt 1))), (VIface None). eexists. eexists. rstart r20. split; [reflexivity|]. split; [vm_compute; reflexivity|]. split; [vm_compute; reflexivity|]. intro A. inversion A.
Qed.
Lemma C40_key_lem : exists E pt v z out v', go_env E /\ two_way E pt tIface /\ typed E tIface v /\ typed E tIface z /\ blank E tIface z /\ v <> VPtr None /\
  v = VIface (Some (tMapSI, VMap (Some [(VString [x22], VIface None)]))) /\ Marshal E (Some (tIface, v)) = Ok (out, None) /\ Unmarshal E 0 out pt (VPtr (Some z)) = Ok (VPtr (Some v'), None) /\ ~ agree E defaultOptions tIface v v'.
Proof.
  exists rndE, 20, (VIface (Some (tMapSI, VMap (Some [(VString [x22], VIface None)])))), (VIface None). eexists. exists (VIface (Some (tMapSI, VMap (Some [(VString [x5c; x22], VIface None)])))). rstart r20. split; [reflexivity|].
  split; [vm_compute; reflexivity|]. split; [vm_compute; reflexivity|]. intro A. inversion A; subst. match goal with H : agree _ _ _ _ _ |- _ => inversion H; subst end.
  match goal with H : forall key, _ <-> _ |- _ => destruct (proj1 (H (VString [x22]))) as [X|[]]; [cbn; auto|discriminate X] end.
Qed.
