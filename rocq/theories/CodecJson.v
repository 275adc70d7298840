(* Marshal returns, and what it writes is JSON (C41). *)
From Coq Require Import Permutation.
From Verif Require Import FloatSpec FmtSpec Bytes Types JsonSpec Parser Doc DocSpec Strjson StrSpec StrThms Float Num NumSpec SetThms NumThms FmtThms OptThms Options Codec CodecSpec CodecMerge CodecBase CodecBuild CodecOmit CodecEnc.

Definition isJson (w : bytes) : Prop := exists j, rfc_value j w.
Lemma ws_nil : ws []. Proof. constructor. Qed.
Lemma rfc_elements : forall ws w, Forall isJson (w :: ws) -> exists js, elements JsonSpec.ws rfc_chars rfc_chars rfc_number js (join x2c (w :: ws)).
Proof.
  induction ws as [|w' ws IH]; intros w F; inversion F as [|? ? (j & J) Fr]; subst.
  - exists [j]. change (join x2c [w]) with w. pose proof (el_one JsonSpec.ws rfc_chars rfc_chars rfc_number [] j w [] ws_nil J ws_nil) as H. rewrite app_nil_r in H. exact H.
  - destruct (IH w' Fr) as (js & H). exists (j :: js). change (join x2c (w :: w' :: ws)) with (w ++ x2c :: join x2c (w' :: ws)).
    exact (el_cons JsonSpec.ws rfc_chars rfc_chars rfc_number [] j w [] js _ ws_nil J ws_nil H).
Qed.
Lemma rfc_array ws : Forall isJson ws -> isJson (x5b :: join x2c ws ++ [x5d]).
Proof.
  destruct ws as [|w ws]; intro F; [exists (JArr []); exact (v_arr0 JsonSpec.ws rfc_chars rfc_chars rfc_number [] ws_nil)|]. destruct (rfc_elements ws w F) as (js & H). exists (JArr js). apply v_arr. exact H.
Qed.
Definition memberOK (m : bytes * bytes) : Prop := rfc_chars (fst m) /\ isJson (snd m).
Lemma rfc_members : forall ms m, Forall memberOK (m :: ms) -> exists js, members JsonSpec.ws rfc_chars rfc_chars rfc_number js (join x2c (map member (m :: ms))).
Proof.
  induction ms as [|m' ms IH]; intros m F; inversion F as [|? ? (R & j & J) Fr]; subst.
  - exists [(fst m, j)]. cbn [map]. change (join x2c [member m]) with (member m). pose proof (mem_one JsonSpec.ws rfc_chars rfc_chars rfc_number [] (fst m) [] [] j (snd m) [] ws_nil R ws_nil ws_nil J ws_nil) as H.
    cbn [app] in H. rewrite app_nil_r in H. exact H.
  - destruct (IH m' Fr) as (js & H). exists ((fst m, j) :: js). cbn [map] in *. change (join x2c (member m :: member m' :: map member ms)) with (member m ++ x2c :: join x2c (member m' :: map member ms)).
    pose proof (mem_cons JsonSpec.ws rfc_chars rfc_chars rfc_number [] (fst m) [] [] j (snd m) [] js _ ws_nil R ws_nil ws_nil J ws_nil H) as Q. cbn [app] in Q.
    unfold member at 1. cbn [app]. rewrite <- app_assoc. cbn [app]. exact Q.
Qed.
Lemma rfc_object ms : Forall memberOK ms -> isJson (x7b :: join x2c (map member ms) ++ [x7d]).
Proof.
  destruct ms as [|m ms]; intro F; [exists (JObj []); exact (v_obj0 JsonSpec.ws rfc_chars rfc_chars rfc_number [] ws_nil)|]. destruct (rfc_members ms m F) as (js & H). exists (JObj js). apply v_obj. exact H.
Qed.
Lemma rfc_string w : rfc_chars w -> isJson (x22 :: w ++ [x22]).
Proof. intro R. exists (JStr w). apply v_str. exact R. Qed.
Lemma rfc_num_json w : rfc_number w -> isJson w.
Proof. intro R. exists (JNum w). apply v_num. exact R. Qed.

Definition rawOK (h : N) : Prop := hasHint h hintRaw = true -> hasHint h hintHTML = true.
Lemma part_lit b w (P : bytes -> Prop) : P w -> part (Ok (b ++ w, None)) b P.
Proof. intros H out E. injection E as <-. eauto. Qed.
Lemma FormatUint_number n : rfc_number (FormatUint n).
Proof. pose proof (rfc_num [] (FormatUint n) [] [] (or_introl eq_refl) (FormatUint_rfc n) frac_none exp_none) as H. cbn [app] in H. rewrite !app_nil_r in H. exact H. Qed.
Lemma FormatInt_number z : rfc_number (FormatInt z).
Proof.
  unfold FormatInt. destruct (z <? 0)%Z; [|apply FormatUint_number].
  pose proof (rfc_num [x2d] (FormatUint (Z.to_N (- z))) [] [] (or_intror eq_refl) (FormatUint_rfc _) frac_none exp_none) as H. cbn [app] in H. rewrite !app_nil_r in H. exact H.
Qed.
Lemma floats_inside v x : floats_json v -> inside v x -> floats_json x.
Proof. intros C I f If. apply C. eapply inside_trans; eassumption. Qed.
Lemma wrote_members Dr (P : fcodec -> gv -> bytes -> Prop) v : (forall c x w, P c x w -> isJson w) -> forall cs ms, (forall c, In c cs -> rfc_chars (ckey (fst c))) -> wrote Dr P v cs ms -> Forall memberOK ms.
Proof.
  intros H cs ms Hk W. induction W; [constructor|apply IHW; intros; apply Hk; right; assumption|apply IHW; intros; apply Hk; right; assumption|]. constructor.
  - split; [apply Hk; left; reflexivity|]. eapply H. eassumption.
  - apply IHW. intros. apply Hk. right. assumption.
Qed.
(* NaN and the infinities are errors *)
Definition finite_only (O : opts) : Prop := oNaN O = false /\ oInf O = false.
Lemma encodeFloat_json E O b f : finite_only O -> ftoa_spec (ftoa E) -> canonical b64 f -> (finite f -> exists g, narrow 32 f g /\ finite g) -> part (encodeFloat E O b f) b isJson.
Proof.
  intros (ON & OI) S C Hf. destruct f as [|s|s m e]; [cbn; rewrite ON; discriminate|cbn; rewrite OI; discriminate|]. cbn [encodeFloat]. destruct (Hf Logic.I) as (g & Nw & Fg).
  destruct (C38_lem (ftoa E) b _ g 32 S C Nw Fg) as (p & p' & _ & A & _ & R & _). rewrite A. apply part_lit. apply rfc_num_json. exact R.
Qed.
Lemma Forall2_right {A B} (P : A -> B -> Prop) (Q : B -> Prop) l m : (forall x y, P x y -> Q y) -> Forall2 P l m -> Forall Q m.
Proof. intro H. induction 1; constructor; eauto. Qed.
Lemma encode_json E : methods_write_json E -> tags_json E defaultOptions -> ftoa_spec (ftoa E) -> walks_maps E ->
  forall fuel O G o t h addr b v, finite_only O -> tags_json E O -> floats_json v -> rawOK h -> sound E O G -> serves E G o (IEnc t) h -> part (encode fuel E G O o addr b v) b isJson.
Proof.
  intros (MA & MJ & MT) TJ0 S WM.
  assert (HA : forall t v b, part (callAppend E t v b) b isJson) by (intros t v b out H; destruct (MA _ _ _ _ H) as (w & j & -> & J); exists w; split; [reflexivity|exists j; exact J]).
  assert (HJ : forall t v b, part (encodeJSON E t b v) b isJson).
  { intros t v b. eapply part_imp; [apply encodeJSON_part|]. intros w [H|[_ H]]; destruct (MJ _ _ _ H) as (w' & j & K & J); [injection K as ->; exists j; exact J|discriminate]. }
  assert (HT : forall t v b, part (encodeText E t b v) b isJson).
  { intros t v b. eapply part_imp; [apply encodeText_part|]. intros w (x & H & ->). apply rfc_string. exact (MT _ _ _ H). }
  assert (HS : forall html b s, part (encodeString html b s) b isJson) by (intros html b s; destruct (encodeString_spec html b s) as (w & -> & R & _); apply part_lit; apply rfc_string; exact R).
  induction fuel as [|k IH]; [discriminate|]. intros O G o t h addr b v FO TJ C Rh Sd Sv. cbn [encode]. destruct (serves_cases E _ G o _ _ Sd Sv) as (T & Ty & Cs). cbn [itype] in *.
  destruct Cs as [[Hd ->]|[(l0 & fs & K & -> & Hz & Sc)|(Hd & Ns & h' & p & Hh & -> & Sc)]].
  { rewrite Ty. destruct (isAppender (tmeth T)); [apply HA|]. destruct (isJSON (tmeth T)); [apply HJ|apply HT]. }
  { destruct Sc as (_ & _ & _ & _ & _ & Sf & F). rewrite Forall_forall in F. eapply part_imp; [apply (encodeFields_part _ _ (fun c x => omit k E G O addr c x = Ok true) (fun _ _ => isJson))|].
    + intros c x [] _ ->; congruence.
    + intros c x b' Ic R. destruct (TJ _ _ _ Sf (in_map fst _ _ Ic)) as [_ Rc]. apply (IH O G _ (ctype (fst c)) (chints (fst c))); [exact FO|exact TJ|eapply floats_inside; [exact C|eapply reaches_inside; exact R]| |exact Sd|exact (proj2 (F c Ic))].
      intro Hr. apply N.eqb_eq. apply Rc. apply N.eqb_eq. exact Hr.
    + intros w (ms & W & ->). apply (rfc_object ms). eapply wrote_members; [|intros c Ic; exact (proj1 (TJ _ _ _ Sf (in_map fst _ _ Ic)))|exact W]. auto. }
  rewrite Ty. assert (NL : isJson strNull) by (exists JNull; exact (v_null JsonSpec.ws rfc_chars rfc_chars rfc_number)).
  assert (Rh' : (forall k e, tkind T <> KMap k e) -> rawOK h') by (intro Nm; destruct Hh as [->|(k' & e' & Km)]; [exact Rh|exfalso; exact (Nm _ _ Km)]).
  destruct Sc as (T0 & Ty0 & _ & Sk). cbn [itype] in Ty0. rewrite Ty in Ty0. injection Ty0 as <-.
  destruct (tkind T) as [| | | | | |[]|e|e|n e|kt e|fs|]; try discriminate.
  - destruct v as [x| | | | | | | | | | |]; try discriminate. apply part_lit. destruct x; [exists JTrue; exact (v_true JsonSpec.ws rfc_chars rfc_chars rfc_number)|exists JFalse; exact (v_false JsonSpec.ws rfc_chars rfc_chars rfc_number)].
  - destruct v; try discriminate. apply part_lit. apply rfc_num_json. apply FormatInt_number.
  - destruct v; try discriminate. apply part_lit. apply rfc_num_json. apply FormatUint_number.
  - destruct v as [| | |f| | | | | | | |]; try discriminate. destruct (C f ltac:(constructor)). apply encodeFloat_json; assumption.
  - destruct v as [| | |f| | | | | | | |]; try discriminate. destruct (C f ltac:(constructor)). apply encodeFloat_json; assumption.
  - destruct v as [| | | |s| | | | | | |]; try discriminate. destruct (hasHint h' hintHTML) eqn:Hx; [apply HS|]. destruct (hasHint h' hintRaw) eqn:Hr; [|apply HS]. exfalso. rewrite (Rh' ltac:(discriminate) Hr) in Hx. discriminate.
  - destruct v as [| | | | |[[dt x]|]| | | | | |]; try discriminate; [|apply part_lit; exact NL]. apply encodeTop_part; auto. intros mt G' o' ad y Nc I. destruct (newCodec_sound _ _ _ _ _ Nc). apply (IH defaultOptions G' o' mt 0%N); [split; reflexivity|exact TJ0| |discriminate|assumption|assumption].
    eapply floats_inside; [exact C|]. constructor. exact I.
  - destruct v as [| | | | | [x|]|[x|]|[[l s]|]| |[m|]| |]; cbn [isNil bind]; try discriminate; try (apply part_lit; exact NL).
    apply (IH O G p e h'); auto; [|apply Rh'; discriminate]. eapply floats_inside; [exact C|]. repeat constructor.
  - destruct v as [| | | | | | |[[l s]|]| | | |]; try discriminate.
    + eapply part_imp; [unfold append1; apply part_prefix; apply (encodeList_part _ (fun _ => isJson))|].
      * intros x b' I. apply (IH O G p e h'); auto; [|apply Rh'; discriminate]. eapply floats_inside; [exact C|]. eapply ins_slice; [exact I|constructor].
      * intros w (w' & -> & ws & F & ->). apply rfc_array. eapply Forall2_right; [|exact F]. auto.
    + unfold append1. rewrite <- app_assoc. apply part_lit. exact (rfc_array [] ltac:(constructor)).
  - destruct v as [| | | | | | | |l| | |]; try discriminate. destruct (length l =? n)%nat; [|discriminate]. eapply part_imp; [unfold append1; apply part_prefix; apply (encodeList_part _ (fun _ => isJson))|].
    + intros x b' I. apply (IH O G p e h'); auto; [|apply Rh'; discriminate]. eapply floats_inside; [exact C|]. eapply ins_array; [exact I|constructor].
    + intros w (w' & -> & ws & F & ->). apply rfc_array. eapply Forall2_right; [|exact F]. auto.
  - destruct v as [| | | | | | | | |[m|]| |]; try discriminate; [|apply part_lit; exact NL].
    eapply part_imp; [unfold append1; apply part_prefix; apply (encodeMap_part _ _ (fun _ w => exists x, w = x22 :: x ++ [x22] /\ rfc_chars x) (fun _ => isJson))|].
    + intros key x b' I. split.
      * unfold encodeKey. destruct (typeOf E kt) as [K|]; [|discriminate]. destruct (isText (tmeth K)); [eapply part_imp; [apply encodeText_part|]; intros w (y & H & ->); exists y; split; [reflexivity|exact (MT _ _ _ H)]|].
        destruct key; try discriminate. destruct (encodeString_spec false b' s) as (w & -> & R & _). apply part_lit. eauto.
      * apply (IH O G p e 0%N); [exact FO|exact TJ| |discriminate|exact Sd|exact (proj2 Sk)]. eapply floats_inside; [exact C|]. eapply ins_map; [|constructor]. eapply Permutation_in; [apply WM|exact I].
    + intros w (w' & -> & ms & F & ->).
      assert (Gm : exists ms', map (fun q => fst q ++ x3a :: snd q) ms = map member ms' /\ Forall memberOK ms').
      { clear - F. induction F as [|p q l ms ((x & Ex & Rx) & J) F (ms' & Em & Fm)]; [exists []; split; [reflexivity|constructor]|]. exists ((x, snd q) :: ms'). split; [|constructor; [split; assumption|assumption]].
        cbn [map]. rewrite Em. f_equal. rewrite Ex. unfold member. cbn [fst snd app]. rewrite <- app_assoc. reflexivity. }
      destruct Gm as (ms' & -> & Gm). apply rfc_object. exact Gm.
Qed.

(* ---- Marshal returns ---- *)
Ltac kinds := match goal with A : _ \/ _ |- _ => destruct A; congruence end.
Ltac inv_typed T := inversion T; subst; try congruence; try kinds.
Lemma typed_typeOf E t v : typed E t v -> exists T, typeOf E t = Some T.
Proof.
  intro T. assert (K : exists k, kindOf E t = Some k) by (inversion T; subst; eauto; match goal with A : _ \/ _ |- _ => destruct A; eauto end).
  destruct K as (k & K). destruct (kindOf_typeOf _ _ _ K) as (X & Ty & _). eauto.
Qed.
Definition acyclic (E : env) (O : opts) : Prop := forall t, isStruct E t = true -> structFields E O t <> Diverge.
Lemma structFields_ok E O t : acyclic E O -> isStruct E t = true -> exists cs, structFields E O t = Ok cs.
Proof. intros A S. destruct (structFields E O t) eqn:F; [eauto| |]; exfalso; [exact (proj2 (structFields_total_lem E O t S) F)|exact (A t S F)]. Qed.
Lemma kind_isStruct E t fs : kindOf E t = Some (KStruct fs) -> isStruct E t = true.
Proof. intro K. apply isStruct_iff. eauto. Qed.
Lemma omitAll_total om l : (forall x, In x l -> exists b, om x = Ok b) -> exists b, omitAll om l = Ok b.
Proof.
  induction l as [|x l IH]; intro H; cbn; [eauto|]. destruct (H x (or_introl eq_refl)) as (b & ->). cbn. destruct b; [|eauto]. apply IH. intros. apply H. right. assumption.
Qed.
Lemma runCustom_total E O t addr v : methods_return E -> typed E t v -> exists r, runCustom E (newCustomOmiter E O t) t addr v = Ok r.
Proof.
  intros (_ & _ & _ & MO & MP) T. unfold newCustomOmiter. destruct (typeOf E t) as [X|] eqn:Ty; [|cbn; eauto]. pose proof (typeOf_kindOf _ _ _ Ty) as K.
  destruct (hasOmit (tmeth X) (oOmitMethod O)); [cbn; destruct (MO t v T) as (b & ->); cbn; eauto|].
  assert (A : exists r, runCustom E (if hasOmit (tptr X) (oOmitMethod O) then CAddr else CNone) t addr v = Ok r).
  { destruct (hasOmit (tptr X) (oOmitMethod O)); cbn; [|eauto]. destruct addr; [|eauto]. destruct (MP t v T) as (b & ->). cbn. eauto. }
  destruct (tkind X) eqn:Kx; auto. destruct (typeOf E e) as [Y|]; [|cbn; eauto]. destruct (hasOmit (tmeth Y) (oOmitMethod O)); cbn; [|eauto].
  inv_typed T; [eauto|]. assert (e0 = e) by congruence. subst. destruct (MO e x H0) as (b & ->). cbn. eauto.
Qed.
Lemma list_max_In {A} (f : A -> nat) l x k : (S (list_max (map f l)) <= S k)%nat -> In x l -> (f x <= k)%nat.
Proof. intros H I. pose proof (In_max f l x I). lia. Qed.
Lemma newOmiter_total E O addr : methods_return E -> forall fuel t v, typed E t v -> (vdepth v <= fuel)%nat -> exists b, newOmiter fuel E O t addr v = Ok b.
Proof.
  intro MR. induction fuel as [|k IH]; intros t v T D; [pose proof (vdepth_pos v); lia|]. cbn [newOmiter]. destruct (runCustom_total E O t addr v MR T) as (r & ->). cbn [bind]. destruct r as [b|]; [eauto|].
  destruct (typed_typeOf _ _ _ T) as (X & Ty). rewrite Ty. pose proof (typeOf_kindOf _ _ _ Ty) as K.
  destruct (tkind X) as [| | | | | |[]|e|e|n e|kt e|fs|] eqn:Kx; try (eexists; reflexivity); inv_typed T; cbn [isNil]; try (eexists; reflexivity).
  assert (Ln : length l = n) by congruence. assert (e0 = e) by congruence. subst e0. rewrite Ln, Nat.eqb_refl. apply omitAll_total. intros x I. apply IH.
  - rewrite Forall_forall in H1. apply H1. exact I.
  - cbn [vdepth] in D. eapply list_max_In; eassumption.
Qed.
Lemma omitFields_total (om : fcodec -> gv -> res bool) v cs : (forall c, In c cs -> exists o, fieldByIndex v (cindex (fst c)) = Ok o /\ match o with Some x => exists b, om c x = Ok b | None => True end) -> exists b, omitFields om cs v = Ok b.
Proof.
  induction cs as [|c cs IH]; intro H; cbn; [eauto|]. destruct (H c (or_introl eq_refl)) as (o & -> & Ho). cbn.
  assert (R : exists b, omitFields om cs v = Ok b) by (apply IH; intros; apply H; right; assumption). destruct o as [x|]; auto. destruct Ho as (b & ->). cbn. destruct b; eauto.
Qed.
Lemma omit_total E G O addr : methods_return E -> embeds_structs E -> sound E O G -> forall fuel c v, serves E G (snd (snd c)) (IEnc (ctype (fst c))) (chints (fst c)) -> typed E (ctype (fst c)) v -> (vdepth v <= fuel)%nat -> exists b, omit fuel E G O addr c v = Ok b.
Proof.
  intros MR ES Sd. induction fuel as [|k IH]; intros c v Sv T D; [pose proof (vdepth_pos v); lia|]. cbn [omit]. destruct (hasHint (chints (fst c)) hintOmitempty); cbn [negb]; [|eauto].
  destruct (serves_cases E O G _ _ _ Sd Sv) as (X & Ty & Cs). cbn [itype] in *.
  destruct Cs as [[Hd ->]|[(l0 & fs & K & -> & Hz & Sc)|(Hd & Ns & h' & p & Hh & -> & Sc)]]; [apply newOmiter_total; assumption| |apply newOmiter_total; assumption].
  destruct (runCustom_total E O (ctype (fst c)) addr v MR T) as (r & ->). cbn [bind]. destruct r as [b|]; [eauto|]. destruct Sc as (_ & _ & _ & _ & _ & Sf & F). rewrite Forall_forall in F.
  apply omitFields_total. intros d Id. destruct (codec_field E O _ _ v (fst d) ES Sf T (in_map fst _ _ Id)) as (o & Eo & Ho). exists o. split; auto. destruct o as [x|]; auto. destruct Ho as (Tx & _ & Dx). apply IH; [exact (proj2 (F d Id))|assumption|lia].
Qed.

Lemma encodeList_total (enc : encodes) l : (forall x b, In x l -> exists r, enc b x = Ok r) -> forall first b, exists r, encodeList enc first l b = Ok r.
Proof.
  induction l as [|x l IH]; intros H first b; cbn; [eauto|]. destruct (H x (if first then b else append1 b delimValueSeparator) (or_introl eq_refl)) as ([o e] & ->). cbn. destruct e; [eauto|]. apply IH. intros. apply H. right. assumption.
Qed.
Lemma encodeMap_total (encKey enc : encodes) m : (forall k x b, In (k, x) m -> (exists r, encKey b k = Ok r) /\ exists r, enc b x = Ok r) -> forall first b, exists r, encodeMap encKey enc first m b = Ok r.
Proof.
  induction m as [|[k x] m IH]; intros H first b; cbn; [eauto|]. destruct (proj1 (H k x (if first then b else append1 b delimValueSeparator) (or_introl eq_refl))) as ([o e] & ->). cbn. destruct e; [eauto|].
  destruct (proj2 (H k x (append1 o delimNameSeparator) (or_introl eq_refl))) as ([o' e'] & ->). cbn. destruct e'; [eauto|]. apply IH. intros. apply H. right. assumption.
Qed.
Lemma encodeFields_total (enc : nat -> encodes) (om : fcodec -> gv -> res bool) v cs :
  (forall c, In c cs -> exists o, fieldByIndex v (cindex (fst c)) = Ok o /\ match o with Some x => (exists b, om c x = Ok b) /\ forall b, exists r, enc (snd (snd c)) b x = Ok r | None => True end) ->
  forall more b, exists r, encodeFields enc om more cs v b = Ok r.
Proof.
  induction cs as [|c cs IH]; intros H more b; cbn [encodeFields]; [eauto|]. destruct (H c (or_introl eq_refl)) as (o & -> & Ho). cbn [bind].
  assert (R : forall more b, exists r, encodeFields enc om more cs v b = Ok r) by (apply IH; intros; apply H; right; assumption). destruct o as [x|]; [|apply R]. destruct Ho as ((d & ->) & He). cbn [bind]. destruct d; [apply R|].
  match goal with |- context [enc _ ?q x] => destruct (He q) as ([o e] & ->) end. cbn [bind]. destruct e; eauto.
Qed.
Lemma typeOf_lt E t T : typeOf E t = Some T -> (t < length (types E))%nat.
Proof. intro H. apply nth_error_Some. unfold typeOf in H. congruence. Qed.
Lemma encodeJSON_total E t b v : methods_return E -> typed E t v -> exists r, encodeJSON E t b v = Ok r.
Proof. intros (_ & M & _) T. unfold encodeJSON. destruct (M t v T) as ([[x|] [e|]] & ->); cbn; eauto. Qed.
Lemma encodeText_total E t b v : methods_return E -> typed E t v -> exists r, encodeText E t b v = Ok r.
Proof. intros (_ & _ & M & _) T. unfold encodeText. destruct (M t v T) as ([x [e|]] & ->); cbn; eauto. Qed.
Lemma encodeTop_total (enc : list cobj -> nat -> bool -> encodes) E t b v : wf_types E -> acyclic E defaultOptions -> methods_return E -> typed E t v -> top_ok E t v ->
  (forall mt G o addr x, newCodec E defaultOptions (IEnc mt) = Ok (Some (o, G)) -> typed E mt x -> inside v x -> (vdepth x <= vdepth v)%nat -> exists r, enc G o addr b x = Ok r) -> exists r, encodeTop enc E t b v = Ok r.
Proof.
  intros W AC MR T (Nv & Tk) HE. unfold encodeTop. destruct (typed_typeOf _ _ _ T) as (X & Ty). rewrite Ty. specialize (Tk X Ty). pose proof (typeOf_kindOf _ _ _ Ty) as K.
  assert (M : forall mt pm Y x addr, typeOf E mt = Some Y -> same_marshals pm (tmeth Y) -> typed E mt x -> inside v x -> (vdepth x <= vdepth v)%nat -> exists r,
    (let! m := if marshals pm then Ok (Some None) else let! r := newCodec E defaultOptions (IEnc mt) in Ok (option_map Some r) in
      match m with
      | None => Ok ([], Some UInvalidType)
      | Some m =>
          match m with
              | Some (o, G) => enc G o addr b x
              | None =>
                  if isAppender pm then if isAppender (tmeth Y) then callAppend E mt x b else Panic
                  else if isJSON pm then if isJSON (tmeth Y) then encodeJSON E mt b x else Panic
                  else if isText (tmeth Y) then encodeText E mt b x else Panic
              end
          end) = Ok r).
  { intros mt pm Y x addr Tm (SA & SJ & ST) Tx Ix Dx. destruct (marshals pm) eqn:Mp; cbn [bind].
    - unfold marshals in Mp. rewrite SA, SJ in *. rewrite ST in Mp. destruct (isAppender (tmeth Y)) eqn:EA; [apply MR; exact Tx|]. destruct (isJSON (tmeth Y)) eqn:EJ; [apply encodeJSON_total; assumption|].
      destruct (isText (tmeth Y)) eqn:ET; [apply encodeText_total; assumption|discriminate].
    - destruct (newCodec_total E defaultOptions (IEnc mt) W AC (typeOf_lt _ _ _ Tm)) as (r & Er). rewrite Er. cbn [bind]. destruct r as [[o G]|]; cbn [option_map]; [|eauto]. eapply HE; eassumption. }
  destruct (tkind X) eqn:Kx.
  8:{ inv_typed T. assert (e0 = e) by congruence. subst e0. destruct (typed_typeOf _ _ _ H0) as (Y & Te). destruct (M e (tmeth X) Y x true Te ltac:(auto) H0 ltac:(repeat constructor) ltac:(cbn; lia)) as (r & Er). exists r. rewrite <- Er.
      match goal with |- bind ?a _ = _ => destruct a as [[m|]| |] end; cbn [bind]; try reflexivity. rewrite Te. reflexivity. }
  all: destruct (M t (tptr X) X v false Ty Tk T ltac:(constructor) ltac:(lia)) as (r & Er); exists r; rewrite <- Er; match goal with |- bind ?a _ = _ => destruct a as [[m|]| |] end; cbn [bind]; try reflexivity; rewrite Ty; reflexivity.
Qed.
Lemma tops_inside E v x : tops_ok E v -> inside v x -> tops_ok E x.
Proof. intros H I dt y J. apply H. eapply inside_trans; eassumption. Qed.
Lemma encode_total E : wf_types E -> embeds_structs E -> acyclic E defaultOptions -> methods_return E -> walks_maps E ->
  forall fuel O G o t h addr b v, typed E t v -> (vdepth v <= fuel)%nat -> tops_ok E v -> sound E O G -> serves E G o (IEnc t) h -> exists r, encode fuel E G O o addr b v = Ok r.
Proof.
  intros W ES AC MR WM. induction fuel as [|k IH]; intros O G o t h addr b v T D Tp Sd Sv; [pose proof (vdepth_pos v); lia|]. cbn [encode].
  destruct (serves_cases E _ G o _ _ Sd Sv) as (X & Ty & Cs). cbn [itype] in *. pose proof (typeOf_kindOf _ _ _ Ty) as K.
  destruct Cs as [[Hd ->]|[(l0 & fs & Ks & -> & Hz & Sc)|(Hd & Ns & h' & p & Hh & -> & Sc)]].
  { rewrite Ty. destruct (isAppender (tmeth X)); [apply MR; exact T|]. destruct (isJSON (tmeth X)); [apply encodeJSON_total; assumption|apply encodeText_total; assumption]. }
  { destruct Sc as (_ & _ & _ & _ & _ & Sf & F). rewrite Forall_forall in F. apply encodeFields_total. intros c Ic.
    destruct (codec_field E _ _ _ v (fst c) ES Sf T (in_map fst _ _ Ic)) as (o' & Eo & Ho). exists o'. split; auto. destruct o' as [x|]; auto. destruct Ho as (Tx & Ix & Dx). destruct (F c Ic) as [_ Se]. split; [apply omit_total; auto; lia|].
    intro b'. apply (IH O G _ (ctype (fst c)) (chints (fst c))); auto; [lia|]. eapply tops_inside; [exact Tp|exact Ix]. }
  rewrite Ty. destruct Sc as (T0 & Ty0 & _ & Sk). cbn [itype] in Ty0. rewrite Ty in Ty0. injection Ty0 as <-.
  assert (HS : forall html s, exists r, encodeString html b s = Ok r) by (intros html s; destruct (encodeString_spec html b s) as (w & -> & _); eauto).
  assert (HF : forall f, exists r, encodeFloat E O b f = Ok r) by (intros [|s|s m e]; cbn [encodeFloat]; eauto; unfold AppendFloat; cbn; eauto).
  destruct (tkind X) as [| | | | | |[]|e|e|n e|kt e|fs|] eqn:Kx; try (exfalso; exact Sk).
  - inv_typed T. eauto.
  - inv_typed T. eauto.
  - inv_typed T. eauto.
  - inv_typed T. apply HF.
  - inv_typed T. apply HF.
  - inv_typed T. destruct (hasHint h' hintHTML); [apply HS|]. destruct (hasHint h' hintRaw); [eauto|apply HS].
  - inv_typed T; [eauto|]. apply encodeTop_total; auto; [apply Tp; constructor|]. intros mt G' o' ad y Nc Ty' Iy Dy. destruct (newCodec_sound _ _ _ _ _ Nc). apply (IH defaultOptions G' o' mt 0%N); auto; [cbn [vdepth] in D; lia|]. eapply tops_inside; [exact Tp|]. constructor. exact Iy.
  - inv_typed T; cbn [isNil bind]; [eauto|]. assert (e0 = e) by congruence. subst. apply (IH O G p e h'); auto; [cbn [vdepth] in D; lia|eapply tops_inside; [exact Tp|]; repeat constructor].
  - inv_typed T; [eauto|]. assert (e0 = e) by congruence. subst. apply encodeList_total. intros x b' I. apply (IH O G p e h'); auto.
    + rewrite Forall_forall in H0. apply H0. exact I.
    + cbn [vdepth] in D. eapply list_max_In; eassumption.
    + eapply tops_inside; [exact Tp|]. eapply ins_slice; [exact I|constructor].
  - inv_typed T. assert (Ln : length l = n) by congruence. assert (e0 = e) by congruence. subst e0. rewrite Ln, Nat.eqb_refl. apply encodeList_total. intros x b' I. apply (IH O G p e h'); auto.
    + rewrite Forall_forall in H1. apply H1. exact I.
    + cbn [vdepth] in D. eapply list_max_In; eassumption.
    + eapply tops_inside; [exact Tp|]. eapply ins_array; [exact I|constructor].
  - destruct Sk as [Ko Sk]. inv_typed T; [eauto|]. assert (k0 = kt /\ e0 = e) as [-> ->] by (split; congruence). apply encodeMap_total. intros key x b' I.
    assert (I' : In (key, x) m) by (eapply Permutation_in; [apply WM|exact I]). rewrite Forall_forall in H0. destruct (H0 _ I') as [Tk Tx]. cbn [fst snd] in Tk, Tx. split.
    + unfold encodeKey. cbn [idec] in Ko. unfold keyOk in Ko. destruct (typeOf E kt) as [Y|] eqn:Tky; [|discriminate]. destruct (isText (tmeth Y)); [apply encodeText_total; assumption|]. cbn [orb] in Ko.
      destruct (tkind Y) eqn:Kk; try discriminate. pose proof (typeOf_kindOf _ _ _ Tky) as Kk'. inv_typed Tk. destruct (encodeString_spec false b' s) as (w & -> & _). eauto.
    + apply (IH O G p e 0%N); auto.
      * cbn [vdepth] in D. exact (list_max_In (fun p => vdepth (snd p)) m (key, x) k D I').
      * eapply tops_inside; [exact Tp|]. eapply ins_map; [exact I'|constructor].
Qed.
Lemma C41_lem E out x : wf_types E -> embeds_structs E -> (forall t, ~ cyclic E defaultOptions t) -> walks_maps E -> ftoa_spec (ftoa E) -> tags_json E defaultOptions ->
  methods_return E -> methods_write_json E ->
  match x with Some (t, v) => typed E t v /\ top_ok E t v /\ tops_ok E v /\ floats_json v | None => True end ->
  exists res err, AppendJSON E out x = Ok (res, err) /\ (err = None -> exists j w, res = out ++ w /\ rfc_value j w).
Proof.
  intros W ES NC WM FS TJ MR MW Hx. destruct x as [[t v]|].
  - destruct Hx as (T & To & Tp & Fl). unfold AppendJSON.
    assert (AC : acyclic E defaultOptions) by (intros u Su Dv; apply (NC u); apply (structFields_total_lem E defaultOptions u Su); exact Dv).
    destruct (encodeTop_total (fun G o => encode (vdepth v) E G defaultOptions o) E t out v W AC MR T To) as ([res err] & Er).
    { intros mt G o ad y Nc Ty Iy Dy. destruct (newCodec_sound _ _ _ _ _ Nc). apply (encode_total E W ES AC MR WM _ defaultOptions G o mt 0%N); auto. eapply tops_inside; eassumption. }
    exists res, err. split; auto. intros ->.
    assert (Pt : part (encodeTop (fun G o => encode (vdepth v) E G defaultOptions o) E t out v) out isJson).
    { destruct MW as (MA & MJ & MT). apply encodeTop_part.
      - intros u y b o H. destruct (MA _ _ _ _ H) as (w & j & -> & J). exists w. split; [reflexivity|exists j; exact J].
      - intros u y b. eapply part_imp; [apply encodeJSON_part|]. intros w [H|[_ H]]; destruct (MJ _ _ _ H) as (w' & j & K & J); [injection K as ->; exists j; exact J|discriminate].
      - intros u y b. eapply part_imp; [apply encodeText_part|]. intros w (z & H & ->). apply rfc_string. exact (MT _ _ _ H).
      - intros mt G o ad y Nc I. destruct (newCodec_sound _ _ _ _ _ Nc). apply (encode_json E) with (t := mt) (h := 0%N); auto; [repeat split; assumption|split; reflexivity|eapply floats_inside; eassumption|discriminate]. }
    destruct (Pt res Er) as (w & -> & j & J). eauto.
  - exists (out ++ strNull), None. split; [reflexivity|]. intros _. exists JNull, strNull. split; [reflexivity|]. exact (v_null JsonSpec.ws rfc_chars rfc_chars rfc_number).
Qed.
