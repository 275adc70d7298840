(* Unmarshal after Marshal (C40). *)
From Coq Require Import Permutation.
From Verif Require Import FloatSpec NumSpec FmtSpec StrSpec StrThms Bytes Types JsonSpec Parser ParserThms Doc DocSpec OkThms Strjson Float Num NumInt SetThms FmtThms Iface IfaceSpec Options Codec CodecSpec CodecMerge CodecBase CodecBuild CodecOmit CodecEnc CodecJson DecodeSpec DecodeThms RoundSpec.
Local Open Scope nat_scope.

(* ---- numbers and strings ---- *)
Lemma int_back z n : float_int z -> (- 2 ^ 63 <= z < 2 ^ 63)%Z -> int_of (FormatInt z) n <-> n = z.
Proof.
  intros F B. destruct (FormatInt_text z) as (-> & T & V). assert (P : ParseInt (text (int_parts z)) = (z, true)) by (rewrite <- V at 2; apply C36_int_iff; auto; rewrite V; auto).
  unfold int_of. rewrite P. cbn. split; [intros [H|[H _]]; [congruence|discriminate]|intros ->; auto].
Qed.
Lemma uint_back z n : float_int z -> (0 <= z < 2 ^ 64)%Z -> uint_of (FormatUint (Z.to_N z)) n <-> n = z.
Proof.
  intros F B. destruct (FormatUint_text z (proj1 B)) as (-> & T & V). assert (P : ParseUint (text (int_parts z)) = (z, true)) by (rewrite <- V at 2; apply C36_uint_iff; auto; rewrite V; auto).
  unfold uint_of. rewrite P. cbn. split; [intros [H|[H _]]; [congruence|discriminate]|intros ->; auto].
Qed.
Lemma cleaned_det p a b : cleaned p a -> cleaned p b -> text a = text b.
Proof.
  destruct a as [n1 i1 f1 e1], b as [n2 i2 f2 e2]. intros (A1 & A2 & A3 & A4) (B1 & B2 & B3 & B4). cbn [pneg pint pfrac pexp] in *. subst. enough (e1 = e2) by (subst; reflexivity).
  destruct A4 as [(d & P & ->)|(N & ->)], B4 as [(d' & P' & ->)|(N' & ->)]; auto; try congruence.
Qed.
Lemma writes_append E O f s b : ftoa_spec (ftoa E) -> writes E f s -> encodeFloat E O b f = Ok (b ++ s, None) /\ rfc_number s.
Proof.
  intros FS (C & (g & Nw & Fg) & Ef). unfold FormatFloat in Ef. destruct (C38_lem (ftoa E) [] f g 32 FS C Nw Fg) as (p & p' & Ep & A & Cl & R & _).
  rewrite A in Ef. injection Ef as <-. cbn [app]. split; [|exact R]. destruct (C38_lem (ftoa E) b f g 32 FS C Nw Fg) as (q & q' & Eq & A' & Cl' & R' & Vq & Sh & _).
  assert (Ex : AppendFloat (ftoa E) b f 32 = Ok (b ++ text p')).
  { rewrite A'. f_equal. f_equal. revert A A'. unfold AppendFloat. cbn [Z.eqb Pos.eqb orb]. destruct (FS f g (useExp f 32) 32%Z C Nw Fg) as (r & Er & Tr & _). rewrite Er. destruct (useExp f 32).
    - destruct (clean_lem [] r Tr) as (r1 & C1 & K1). destruct (clean_lem b r Tr) as (r2 & C2 & K2). rewrite C1, C2. cbn [app]. intros A A'. injection A as A. injection A' as A'. apply app_inv_head in A'.
      rewrite <- A, <- A'. symmetry. eapply cleaned_det; eassumption.
    - intros A A'. injection A as A. injection A' as A'. apply app_inv_head in A'. congruence. }
  assert (Fin : finite f) by (destruct Nw as [[K _]|[_ Nw]]; [discriminate K|destruct f; [subst g; exact Fg|subst g; exact Fg|exact I]]).
  destruct f as [|sg|sg m e]; try contradiction. unfold encodeFloat. rewrite Ex. reflexivity.
Qed.
Lemma string_back s html : valid_utf8 s -> plain_end s -> forall b, exists w, encodeString html b s = Ok (b ++ x22 :: w ++ [x22], None) /\ rfc_chars w /\ plain_end w /\ Unescaped w = Ok s.
Proof.
  intros V P b. destruct (encodeString_spec html b s) as (w & En & R & Es). exists w. split; auto. split; auto. destruct (C26_valid_lem s html V) as (e & Ee & U). assert (e = w) by congruence. subst e.
  split; auto. eapply escaped_plain_end; eassumption.
Qed.

(* ---- grammar ---- *)
(* texts without whitespace *)
Notation plain := (value no_ws (fun w => rfc_chars w /\ plain_end w) rfc_chars rfc_number).
Lemma plain_elements : forall ws w js j, Forall2 plain (j :: js) (w :: ws) -> elements no_ws (fun w => rfc_chars w /\ plain_end w) rfc_chars rfc_number (j :: js) (join x2c (w :: ws)).
Proof.
  induction ws as [|w' ws IH]; intros w js j F; inversion F as [|? ? ? ? J Fr]; subst.
  - inversion Fr; subst. change (join x2c [w]) with w. pose proof (el_one no_ws (fun w => rfc_chars w /\ plain_end w) rfc_chars rfc_number [] j w [] (eq_refl : no_ws []) J (eq_refl : no_ws [])) as H. rewrite app_nil_r in H. exact H.
  - inversion Fr; subst. change (join x2c (w :: w' :: ws)) with (w ++ x2c :: join x2c (w' :: ws)).
    exact (el_cons no_ws (fun w => rfc_chars w /\ plain_end w) rfc_chars rfc_number [] j w [] _ _ (eq_refl : no_ws []) J (eq_refl : no_ws []) (IH _ _ _ Fr)).
Qed.
Lemma plain_array js ws : Forall2 plain js ws -> plain (JArr js) (x5b :: join x2c ws ++ [x5d]).
Proof.
  intro F. destruct F as [|j w js ws J F]; [exact (v_arr0 no_ws _ rfc_chars rfc_number [] (eq_refl : no_ws []))|]. apply v_arr. apply plain_elements. constructor; assumption.
Qed.
Definition memberJ (mj : bytes * jval) (m : bytes * bytes) : Prop := fst mj = fst m /\ rfc_chars (fst m) /\ plain (snd mj) (snd m).
Lemma plain_members : forall ms m mjs mj, Forall2 memberJ (mj :: mjs) (m :: ms) -> members no_ws (fun w => rfc_chars w /\ plain_end w) rfc_chars rfc_number (mj :: mjs) (join x2c (map member (m :: ms))).
Proof.
  induction ms as [|m' ms IH]; intros m mjs [k j] F; inversion F as [|? ? ? ? (Ek & R & J) Fr]; subst; cbn [fst snd] in *; subst k.
  - inversion Fr; subst. cbn [map]. change (join x2c [member m]) with (member m).
    pose proof (mem_one no_ws (fun w => rfc_chars w /\ plain_end w) rfc_chars rfc_number [] (fst m) [] [] j (snd m) [] (eq_refl : no_ws []) R (eq_refl : no_ws []) (eq_refl : no_ws []) J (eq_refl : no_ws [])) as H.
    cbn [app] in H. rewrite app_nil_r in H. exact H.
  - inversion Fr; subst. cbn [map] in *. change (join x2c (member m :: member m' :: map member ms)) with (member m ++ x2c :: join x2c (member m' :: map member ms)).
    pose proof (mem_cons no_ws (fun w => rfc_chars w /\ plain_end w) rfc_chars rfc_number [] (fst m) [] [] j (snd m) [] _ _ (eq_refl : no_ws []) R (eq_refl : no_ws []) (eq_refl : no_ws []) J (eq_refl : no_ws []) (IH _ _ _ Fr)) as Q. cbn [app] in Q.
    unfold member at 1. cbn [app]. rewrite <- app_assoc. cbn [app]. exact Q.
Qed.
Lemma plain_object mjs ms : Forall2 memberJ mjs ms -> plain (JObj mjs) (x7b :: join x2c (map member ms) ++ [x7d]).
Proof.
  intro F. destruct F as [|mj m mjs ms J F]; [exact (v_obj0 no_ws _ rfc_chars rfc_number [] (eq_refl : no_ws []))|]. apply v_obj. apply plain_members. constructor; assumption.
Qed.
Lemma tight_plain : forall j w, plain j w -> rfc_value_plain j w.
Proof.
  intros j w. apply value_mono; auto using no_ws_ws.
Qed.
Lemma Forall2_choose {A B C} (P : A -> C -> Prop) (Q : C -> B -> Prop) l ws : Forall2 (fun x w => exists j, Q j w /\ P x j) l ws -> exists js, Forall2 P l js /\ Forall2 Q js ws.
Proof. induction 1 as [|x w l ws (j & J & Pj) F (js & F1 & F2)]; [exists []; split; constructor|]. exists (j :: js). split; constructor; assumption. Qed.

(* ---- encoders that report no error ---- *)
Lemma encodeList_fine (enc : encodes) l : (forall x b, In x l -> exists w, enc b x = Ok (b ++ w, None)) -> forall first b, exists o, encodeList enc first l b = Ok (o, None).
Proof.
  induction l as [|x l IH]; intros H first b; cbn [encodeList]; [eauto|]. destruct (H x (if first then b else append1 b delimValueSeparator) ltac:(left; reflexivity)) as (w & ->). cbn [bind].
  apply IH. intros. apply H. right. assumption.
Qed.
Lemma encodeMap_fine (encKey enc : encodes) m : (forall k x b, In (k, x) m -> (exists w, encKey b k = Ok (b ++ w, None)) /\ exists w, enc b x = Ok (b ++ w, None)) ->
  forall first b, exists o, encodeMap encKey enc first m b = Ok (o, None).
Proof.
  induction m as [|[k x] m IH]; intros H first b; cbn [encodeMap]; [eauto|]. destruct (proj1 (H k x (if first then b else append1 b delimValueSeparator) ltac:(left; reflexivity))) as (w & ->). cbn [bind].
  destruct (proj2 (H k x (append1 ((if first then b else append1 b delimValueSeparator) ++ w) delimNameSeparator) ltac:(left; reflexivity))) as (w' & ->). cbn [bind]. apply IH. intros. apply H. right. assumption.
Qed.
Lemma encodeFields_fine (enc : nat -> encodes) (om : fcodec -> gv -> res bool) v cs :
  (forall c, In c cs -> exists o, fieldByIndex v (cindex (fst c)) = Ok o /\ match o with Some x => (exists b, om c x = Ok b) /\ forall b, exists w, enc (snd (snd c)) b x = Ok (b ++ w, None) | None => True end) ->
  forall more b, exists o, encodeFields enc om more cs v b = Ok (o, None).
Proof.
  induction cs as [|c cs IH]; intros H more b; cbn [encodeFields]; [eauto|]. destruct (H c ltac:(left; reflexivity)) as (o & -> & Ho). cbn [bind].
  assert (Hr : forall more b, exists o, encodeFields enc om more cs v b = Ok (o, None)) by (intros; apply IH; intros; apply H; right; assumption).
  destruct o as [x|]; [|apply Hr]. destruct Ho as [(q & ->) En]. cbn [bind]. destruct q; [apply Hr|]. match goal with |- context [enc _ ?B x] => destruct (En B) as (w & ->) end. cbn [bind]. apply Hr.
Qed.

(* ---- interfaces ---- *)
Notation D := defaultOptions.
Lemma std_type E t : t < 6 -> exists k, typeOf E t = Some (plainT k) /\ In k [KIface false; KBool; KFloat64; KString; KSlice tIface; KMap tString tIface].
Proof. intro L. do 6 (destruct t as [|t]; [eexists; split; [reflexivity|cbn; tauto]|]). lia. Qed.
Lemma std_uses E O t x : t < 6 -> uses_star E O (IEnc t) x -> exists u, x = IEnc u /\ u < 6.
Proof.
  intros L U. remember (IEnc t) as a eqn:Ea. revert t L Ea. induction U as [a|a b c H U IH]; intros t L ->; [eauto|]. destruct (std_type E t L) as (k & Ty & Ik).
  assert (Hk : forall e, In e (elems k) -> e < 6) by (intros e Ie; cbn [In] in Ik; repeat (destruct Ik as [<-|Ik]); cbn in Ie; intuition (subst; unfold tIface; lia)).
  inversion H as [|? T e By Ie|? ? T fs cs d ? Hi By Kt _ _ _]; subst.
  - destruct By as [Ty' _]. rewrite Ty in Ty'. injection Ty' as <-. cbn in Ie. apply (IH e); auto.
  - destruct Hi as [Hi|Hi]; try discriminate. injection Hi as <-. destruct By as [Ty' _]. rewrite Ty in Ty'. injection Ty' as <-. cbn in Kt. subst k. cbn in Ik. intuition discriminate.
Qed.
Lemma std_top E t : wf_types E -> (forall u, ~ cyclic E defaultOptions u) -> t < 6 ->
  exists o G, sound E defaultOptions G /\ serves E G o (IEnc t) 0 /\ forall enc b v, encodeTop enc E t b v = enc G o false b v.
Proof.
  intros W NC L. destruct (C54_lem E defaultOptions (IEnc t) W NC) as (r & B & H). { unfold types. rewrite app_length. cbn. lia. } destruct r as [[o G]|].
  - exists o, G. destruct (newCodec_sound _ _ _ _ _ B) as [Sd Sv]. split; [exact Sd|]. split; [exact Sv|]. intros enc b v. unfold encodeTop. destruct (std_type E t L) as (k & Ty & Ik). rewrite Ty.
    cbn [In] in Ik. repeat (destruct Ik as [<-|Ik]); try contradiction; cbn [tkind plainT tmeth tptr]; cbn [marshals noMethods isAppender isJSON isText orb]; rewrite B; cbn [bind option_map]; rewrite Ty; reflexivity.
  - exfalso. destruct (proj1 H eq_refl) as (x & U & La). destruct (std_uses _ _ _ _ L U) as (u & -> & Lu). destruct (std_type E u Lu) as (k & Ty & Ik). destruct La as (T & By & Hk). destruct By as [Ty' _]. rewrite Ty in Ty'. injection Ty' as <-.
    cbn [tkind plainT] in Hk. cbn [In] in Ik. repeat (destruct Ik as [<-|Ik]); try contradiction. destruct Hk as [Hk _]. apply Hk. reflexivity.
Qed.
(* the object of a type without methods *)
Lemma serves_kind E O G o t h T : sound E O G -> serves E G o (IEnc t) h -> typeOf E t = Some T -> no_marshaler (tmeth T) -> (forall l, tkind T <> KStruct l) ->
  exists h' p, (h' = h \/ exists k e, tkind T = KMap k e) /\ nth_error G o = Some (CKind (IEnc t) h' p) /\
    match tkind T with KPtr e | KSlice e | KArray _ e => serves E G p (IEnc e) h' | KMap _ e => serves E G p (IEnc e) 0 | _ => True end.
Proof.
  intros Sd Sv Ty (NA & NJ & NT) Ns. destruct (serves_cases E O G o _ _ Sd Sv) as (T' & Ty' & Cs). cbn [itype] in *. rewrite Ty in Ty'. injection Ty' as <-.
  destruct Cs as [[Hd _]|[(l & fs & K & _)|(_ & _ & h' & p & Hh & Nx & Sc)]]; [unfold handled, marshals in Hd; rewrite NA, NJ, NT in Hd; discriminate Hd|exfalso; exact (Ns _ K)|].
  exists h', p. split; [exact Hh|]. split; [exact Nx|]. destruct Sc as (T' & Ty' & _ & Sk). cbn [itype] in Ty'. rewrite Ty in Ty'. injection Ty' as <-.
  destruct (tkind T) as [| | | | | |[]| | | | | |]; auto. exact (proj2 Sk).
Qed.
Lemma std_kind E O G o t h k : sound E O G -> serves E G o (IEnc t) h -> typeOf E t = Some (plainT k) -> (forall l, k <> KStruct l) ->
  exists h' p, (h' = h \/ exists a e, k = KMap a e) /\ nth_error G o = Some (CKind (IEnc t) h' p) /\
    match k with KPtr e | KSlice e | KArray _ e => serves E G p (IEnc e) h' | KMap _ e => serves E G p (IEnc e) 0 | _ => True end.
Proof. intros Sd Sv Ty Ns. exact (serves_kind E _ G o t h (plainT k) Sd Sv Ty ltac:(repeat split) Ns). Qed.
Lemma assoc_In {A} k (m : list (bytes * A)) x : assoc k m = Some x -> In (k, x) m.
Proof. induction m as [|[k' y] m IH]; cbn; [discriminate|]. destruct (bseqb k k') eqn:B; [apply bseqb_true in B; subst; injection 1 as ->; auto|auto]. Qed.
Lemma assoc_dom {A} k (m : list (bytes * A)) : In k (map fst m) -> exists x, assoc k m = Some x.
Proof. induction m as [|[k' y] m IH]; cbn; [contradiction|]. intros [<-|I]; [rewrite bseqb_refl; eauto|]. destruct (bseqb k k'); eauto. Qed.
Lemma assoc_once {A} k (m : list (bytes * A)) x : NoDup (map fst m) -> In (k, x) m -> assoc k m = Some x.
Proof.
  induction m as [|[k' y] m IH]; intros N I; [destruct I|]. inversion N; subst. cbn. destruct I as [I|I]; [injection I as -> ->; rewrite bseqb_refl; reflexivity|].
  destruct (bseqb k k') eqn:B; auto. apply bseqb_true in B. subst k'. exfalso. apply H1. apply (in_map fst _ _ I).
Qed.
Lemma NoDup_once {A B} (m : list (A * B)) k x y : NoDup (map fst m) -> In (k, x) m -> In (k, y) m -> x = y.
Proof.
  induction m as [|[k' z] m IH]; intros N I J; [destruct I|]. inversion N; subst. destruct I as [I|I], J as [J|J]; try congruence; auto.
  - injection I as -> ->. exfalso. apply H1. exact (in_map fst _ _ J).
  - injection J as -> ->. exfalso. apply H1. exact (in_map fst _ _ I).
Qed.
Lemma Forall2_In_l {A B} (R : A -> B -> Prop) l m x : Forall2 R l m -> In x l -> exists y, In y m /\ R x y.
Proof. induction 1; intros I; [destruct I|]. destruct I as [<-|I]; [eexists; split; [left; reflexivity|assumption]|]. destruct (IHForall2 I) as (z & Iy & Ry). exists z. split; [right|]; assumption. Qed.
Lemma Forall2_In_r {A B} (R : A -> B -> Prop) l m y : Forall2 R l m -> In y m -> exists x, In x l /\ R x y.
Proof. induction 1; intros I; [destruct I|]. destruct I as [<-|I]; [eexists; split; [left; reflexivity|assumption]|]. destruct (IHForall2 I) as (z & Iy & Ry). exists z. split; [right|]; assumption. Qed.

Definition goes (E : env) (v : gv) (j : jval) : Prop :=
  numbers_parse j /\ (forall O g, go_of j g -> agree E O tIface v (VIface (ofGo g))) /\ (j = JNull -> v = VIface None).
Lemma goes_slice E l s js : Forall2 (goes E) l js -> goes E (VIface (Some (tSliceI, VSlice (Some (l, s))))) (JArr js).
Proof.
  intro F. split; [|split; [|discriminate]].
  - constructor. eapply Forall2_right; [|exact F]. intros x y H. exact (proj1 H).
  - intros O g G. inversion G as [| | | | |ts vs Fg|]; subst. cbn [ofGo]. apply ag_iface. eapply ag_slice; [reflexivity|].
    clear G. revert vs Fg. induction F as [|x j l js H F IH]; intros vs Fg; inversion Fg; subst; cbn [map]; constructor; auto. apply H. assumption.
Qed.
Lemma goes_map E m m0 mjs : NoDup (map fst m) -> Permutation m0 m -> Forall2 (fun p q => fst p = VString (fst q) /\ goes E (snd p) (snd q)) m0 mjs ->
  goes E (VIface (Some (tMapSI, VMap (Some m)))) (JObj mjs).
Proof.
  intros N Pm F. split; [|split; [|discriminate]].
  - constructor. eapply Forall2_right; [|exact F]. intros x y H. exact (proj1 (proj2 H)).
  - intros O g G. inversion G as [| | | | | |ms vs m' Fv Nm As]; subst. cbn [ofGo]. apply ag_iface. set (f := fun p : bytes * goval => (VString (fst p), VIface (ofGo (snd p)))).
    assert (In1 : forall k x, In (k, x) m' -> exists y, In (VString k, y) m /\ agree E O tIface y (VIface (ofGo x))).
    { intros k x I. pose proof (assoc_once _ _ _ Nm I) as A. rewrite As in A. apply assoc_In in A. rewrite <- in_rev in A.
      destruct (Forall2_In_r _ _ _ _ Fv A) as ([k1 j] & Ij & Ek & Gj). cbn [fst snd] in *. subst k1.
      destruct (Forall2_In_r _ _ _ _ F Ij) as ([kv y] & Iy & Ey & (_ & Gy & _)). cbn [fst snd] in *. subst kv. exists y. split; [eapply Permutation_in; eassumption|auto]. }
    eapply ag_map; [reflexivity| | |].
    + unfold f. rewrite map_map. cbn [fst]. rewrite <- (map_map fst VString). apply FinFun.Injective_map_NoDup; auto. intros a b. injection 1. auto.
    + intro key. split; intro I.
      * apply in_map_iff in I as ([k y] & <- & I). apply (Permutation_in _ (Permutation_sym Pm)) in I. destruct (Forall2_In_l _ _ _ _ F I) as ([k1 j] & Ij & Ek & _). cbn [fst snd] in *. subst k.
        destruct (Forall2_In_l _ _ _ _ Fv Ij) as ([k2 x] & Ix & Ek & _). cbn [fst snd] in *. subst k2. destruct (assoc_dom k1 (rev vs)) as (x' & A); [rewrite map_rev, <- in_rev; exact (in_map fst _ _ Ix)|].
        rewrite <- As in A. apply assoc_In in A. apply in_map_iff. exists (f (k1, x')). split; [reflexivity|]. apply in_map. exact A.
      * apply in_map_iff in I as (p & <- & I). apply in_map_iff in I as ([k x] & <- & I). destruct (In1 _ _ I) as (y & Iy & _). exact (in_map fst _ _ Iy).
    + intros key x y Ix Iy. apply in_map_iff in Iy as ([k g] & Eg & Iy). injection Eg as <- <-. destruct (In1 _ _ Iy) as (x' & Ix' & Ag). rewrite (NoDup_once _ _ _ _ N Ix Ix'). exact Ag.
Qed.
Lemma go_round E : wf_types E -> (forall u, ~ cyclic E defaultOptions u) -> ftoa_spec (ftoa E) -> walks_maps E ->
  forall fuel v O G o h addr b, sound E O G -> serves E G o (IEnc tIface) h -> vdepth v <= fuel -> go_kept E v -> exists w j, encode fuel E G O o addr b v = Ok (b ++ w, None) /\ plain j w /\ goes E v j.
Proof.
  intros W NC FS WM. induction fuel as [fuel IH] using lt_wf_ind. intros v O0 G0 o0 h addr b Sd0 Sv0 L Gk. destruct fuel as [|k]; [pose proof (vdepth_pos v); lia|].
  destruct (std_kind E _ G0 o0 tIface h (KIface false) Sd0 Sv0 eq_refl ltac:(discriminate)) as (h0 & p0 & _ & N0 & _). cbn [encode]. rewrite N0. change (typeOf E tIface) with (Some (plainT (KIface false))). cbn [tkind plainT].
  destruct Gk as [|x|f s Ws Np Fe|s Vs Ps| |l s Fl|m Nm Fm]; [|match goal with |- context [encodeTop _ E ?T _ _] => destruct (std_top E T W NC ltac:(unfold tBool, tFloat64, tString, tSliceI, tMapSI; lia)) as (o & G & Sd & Sv & Et) end; rewrite Et; destruct k as [|k]; [cbn in L; lia|]; cbn [encode]..].
  - exists (str "null"), JNull. split; [reflexivity|]. split; [exact (v_null no_ws _ rfc_chars rfc_number)|]. split; [constructor|split; [|reflexivity]]. intros O' g Gg. inversion Gg. constructor.
  - destruct (std_kind E _ G o tBool 0 KBool Sd Sv eq_refl ltac:(discriminate)) as (h1 & p & _ & -> & _). change (typeOf E tBool) with (Some (plainT KBool)). cbn [plainT tkind]. exists (if x then strTrue else strFalse), (if x then JTrue else JFalse). split; [reflexivity|].
    destruct x; (split; [constructor|]); (split; [constructor|split; [|discriminate]]); intros O' g Gg; inversion Gg; constructor.
  - destruct (std_kind E _ G o tFloat64 0 KFloat64 Sd Sv eq_refl ltac:(discriminate)) as (h1 & p & _ & -> & _). change (typeOf E tFloat64) with (Some (plainT KFloat64)). cbn [plainT tkind]. destruct (writes_append E D f s b FS Ws) as (En & R).
    exists s, (JNum s). split; [exact En|]. split; [apply v_num; exact R|]. split; [constructor; exact Np|split; [|discriminate]]. intros O' g Gg. inversion Gg; subst. cbn [ofGo]. apply ag_iface. apply ag_float. exact Fe.
  - destruct (std_kind E _ G o tString 0 KString Sd Sv eq_refl ltac:(discriminate)) as (h1 & p & Hh & -> & _). destruct Hh as [->|(? & ? & Hh)]; [|discriminate Hh]. change (typeOf E tString) with (Some (plainT KString)). cbn [plainT tkind].
    change (hasHint 0 hintHTML) with false. change (hasHint 0 hintRaw) with false. cbn iota.
    destruct (string_back s false Vs Ps b) as (w & En & R & P & U). exists (x22 :: w ++ [x22]), (JStr w). split; [exact En|]. split; [apply v_str; auto|]. split; [constructor|split; [|discriminate]].
    intros O' g Gg. inversion Gg as [| | |? u Uo| | |]; subst. rewrite U in Uo. injection Uo as <-. apply ag_same.
  - destruct (std_kind E _ G o tSliceI 0 (KSlice tIface) Sd Sv eq_refl ltac:(discriminate)) as (h1 & p & _ & -> & Sk). change (typeOf E tSliceI) with (Some (plainT (KSlice tIface))). cbn [plainT tkind].
    exists [x5b; x5d], (JArr []). split; [unfold append1; rewrite <- app_assoc; reflexivity|].
    split; [exact (plain_array [] [] ltac:(constructor))|]. split; [constructor; constructor|split; [|discriminate]]. intros O' g Gg. inversion Gg as [| | | | |ts vs Fv|]; subst. inversion Fv; subst. cbn [ofGo map]. apply ag_iface. apply ag_nil.
  - destruct (std_kind E _ G o tSliceI 0 (KSlice tIface) Sd Sv eq_refl ltac:(discriminate)) as (h1 & p & _ & -> & Sk). change (typeOf E tSliceI) with (Some (plainT (KSlice tIface))). cbn [plainT tkind].
    assert (H : forall x b', In x l -> exists w j, encode k E G D p true b' x = Ok (b' ++ w, None) /\ plain j w /\ goes E x j).
    { intros x b' I. apply (IH k ltac:(lia) x D G p h1); auto; [|rewrite Forall_forall in Fl; auto]. cbn [vdepth] in L. pose proof (In_max vdepth l x I). lia. }
    destruct (encodeList_fine (encode k E G D p true) l ltac:(intros x b' I; destruct (H x b' I) as (w & j & -> & _); eauto) true (append1 b delimBeginArray)) as (u & Eo).
    assert (Pt : part (encodeList (encode k E G D p true) true l (append1 b delimBeginArray)) (append1 b delimBeginArray) (fun w => exists ws, Forall2 (fun x w => exists j, plain j w /\ goes E x j) l ws /\ w = sepd true ws ++ [x5d])).
    { apply encodeList_part. intros x b' I out Ex. destruct (H x b' I) as (w & j & En & J & Gj). rewrite En in Ex. injection Ex as <-. eauto. }
    destruct (Pt u Eo) as (w & -> & ws & F & ->). destruct (Forall2_choose _ _ _ _ F) as (js & F1 & F2). exists (x5b :: join x2c ws ++ [x5d]), (JArr js). split; [|split].
    + rewrite Eo. unfold append1. rewrite <- app_assoc. reflexivity.
    + apply plain_array. exact F2.
    + apply goes_slice. exact F1.
  - destruct (std_kind E _ G o tMapSI 0 (KMap tString tIface) Sd Sv eq_refl ltac:(discriminate)) as (h1 & p & _ & -> & Sk). change (typeOf E tMapSI) with (Some (plainT (KMap tString tIface))). cbn [plainT tkind].
    set (m0 := mapOrder E b m). assert (Pm : Permutation m0 m) by apply WM.
    assert (H : forall kk x b', In (kk, x) m0 -> (exists w, encodeKey E tString b' kk = Ok (b' ++ w, None) /\ exists key, kk = VString key /\ w = x22 :: key ++ [x22] /\ rfc_chars key) /\
      exists w j, encode k E G D p false b' x = Ok (b' ++ w, None) /\ plain j w /\ goes E x j).
    { intros kk x b' I. assert (I' : In (kk, x) m) by (eapply Permutation_in; eassumption). rewrite Forall_forall in Fm. destruct (Fm _ I') as ((key & Ek & Es) & Gx). cbn [fst snd] in *. subst kk. split.
      - unfold encodeKey. change (typeOf E tString) with (Some (plainT KString)). cbn [tmeth plainT noMethods isText]. destruct (encodeString_spec false b' key) as (w & -> & R & Ew). assert (w = key) by congruence. subst w. eauto 10.
      - apply (IH k ltac:(lia) x D G p 0%N); auto. cbn [vdepth] in L. pose proof (In_max (fun p => vdepth (snd p)) m (VString key, x) I') as Mx. cbn [snd] in Mx. lia. }
    destruct (encodeMap_fine (encodeKey E tString) (encode k E G D p false) m0 ltac:(intros kk x b' I; destruct (H kk x b' I) as ((w & -> & _) & w' & j & -> & _); eauto) true (append1 b delimBeginObject)) as (u & Eo).
    assert (Pt : part (encodeMap (encodeKey E tString) (encode k E G D p false) true m0 (append1 b delimBeginObject)) (append1 b delimBeginObject)
      (fun w => exists ms, Forall2 (fun p q => (exists key, fst p = VString key /\ fst q = x22 :: key ++ [x22] /\ rfc_chars key) /\ (exists j, plain j (snd q) /\ goes E (snd p) j)) m0 ms /\ w = sepd true (map (fun q => fst q ++ x3a :: snd q) ms) ++ [x7d])).
    { apply (encodeMap_part (encodeKey E tString) (encode k E G D p false) (fun kk w => exists key, kk = VString key /\ w = x22 :: key ++ [x22] /\ rfc_chars key) (fun x w => exists j, plain j w /\ goes E x j)).
      intros kk x b' I. destruct (H kk x b' I) as ((w & En & key & Hk) & w' & j & En' & J & Gj). split; intros out Ex; [rewrite En in Ex|rewrite En' in Ex]; injection Ex as <-; eauto. }
    destruct (Pt u Eo) as (w & -> & ms & F & ->).
    assert (Gx : exists mjs ms', Forall2 (fun p q => fst p = VString (fst q) /\ goes E (snd p) (snd q)) m0 mjs /\ Forall2 memberJ mjs ms' /\ map (fun q : bytes * bytes => fst q ++ x3a :: snd q) ms = map member ms').
    { clear - F. induction F as [|p q m0 ms ((key & Ek & Eq & R) & j & J & Gj) F (mjs & ms' & F1 & F2 & Em)]; [exists [], []; repeat split; constructor|].
      exists ((key, j) :: mjs), ((key, snd q) :: ms'). split; [constructor; [split; assumption|assumption]|]. split; [constructor; [repeat split; assumption|assumption]|]. cbn [map]. rewrite Em. f_equal. rewrite Eq. unfold member. cbn [fst snd app].
      rewrite <- app_assoc. reflexivity. }
    destruct Gx as (mjs & ms' & F1 & F2 & Em). exists (x7b :: join x2c (map member ms') ++ [x7d]), (JObj mjs). split; [|split].
    + rewrite Eo. rewrite Em. unfold append1. rewrite <- app_assoc. reflexivity.
    + apply plain_object. exact F2.
    + eapply goes_map; eassumption.
Qed.

(* ---- fields ---- *)
Lemma put_reaches v p x y v' : put v p x y v' -> reaches v p x /\ reaches v' p y.
Proof.
  induction 1 as [|a x b path o y x' P (R1 & R2)]; [split; constructor|]. split; (eapply rc_field; [rewrite nth_error_app2, Nat.sub_diag by lia; reflexivity|assumption]).
Qed.
Lemma nth_mid {A} (a : list A) x b i : nth_error (a ++ x :: b) i = if i =? length a then Some x else nth_error (a ++ b) (if i <? length a then i else i - 1).
Proof.
  destruct (Nat.eqb_spec i (length a)) as [->|N]; [rewrite nth_error_app2, Nat.sub_diag by lia; reflexivity|]. destruct (Nat.ltb_spec i (length a)); [rewrite !nth_error_app1 by lia; reflexivity|].
  rewrite !nth_error_app2 by lia. destruct (i - length a) as [|k] eqn:Ek; [lia|]. cbn. f_equal. lia.
Qed.
Lemma put_other v p x y v' : put v p x y v' -> forall q a, before p q \/ before q p -> reaches v q a -> reaches v' q a.
Proof.
  induction 1 as [x y|l x r path o y x' P IH]; intros q a B R.
  - exfalso. destruct B as [(u & i & j & s & t & E & _)|(u & i & j & s & t & _ & E & _)]; destruct u; discriminate.
  - destruct q as [|i q].
    { exfalso. destruct B as [(u & i & j & s & t & _ & E & _)|(u & i & j & s & t & E & _)]; destruct u; discriminate. }
    inversion R as [|? k z ? ? Nz Rz|]; subst. rewrite nth_mid in Nz. destruct (Nat.eqb_spec k (length l)) as [->|Ne].
    + injection Nz as <-. eapply rc_field; [rewrite nth_error_app2, Nat.sub_diag by lia; reflexivity|]. apply IH; auto.
      destruct B as [(u & i & j & s & t & E1 & E2 & L)|(u & i & j & s & t & E1 & E2 & L)]; (destruct u as [|i0 u]; cbn in E1, E2; injection E1 as E1 E1'; injection E2 as E2 E2'; [subst; lia|]); [left|right]; exists u, i, j, s, t; auto.
    + eapply rc_field; [|exact Rz]. rewrite nth_mid. destruct (Nat.eqb_spec k (length l)); [contradiction|]. exact Nz.
Qed.
Lemma reaches_same p : forall v x y, reaches v p x -> reaches v p y -> x = y.
Proof.
  induction p as [|i p IH]; intros v x y R R'; inversion R; subst; inversion R'; subst; auto; try lia; try (eapply IH; eassumption).
  match goal with A : Z.of_nat _ = Z.of_nat _ |- _ => apply Nat2Z.inj in A; subst end. match goal with A : nth_error ?l ?i = Some _, B : nth_error ?l ?i = Some _ |- _ => rewrite A in B; injection B as -> end. eapply IH; eassumption.
Qed.
Lemma subseq_FOP {A} (R : A -> A -> Prop) a b : subseq a b -> ForallOrdPairs R b -> ForallOrdPairs R a.
Proof.
  induction 1 as [|x a b S IH|x a b S IH]; intro F; [constructor| |]; inversion F; subst; auto. constructor; auto. apply Forall_forall. intros y Iy. rewrite Forall_forall in H1. apply H1. eapply subseq_In; eassumption.
Qed.
Lemma codecs_apart E O t cs : structFields E O t = Ok cs -> forall c d, In c cs -> In d cs -> c = d \/ before (cindex c) (cindex d) \/ before (cindex d) (cindex c).
Proof.
  intros F c d Ic Id. destruct (structFields_offers _ _ _ _ F) as (l & Ol & Ec). destruct (C46_partial_lem _ _ _ _ F l Ol) as (Sl & _). pose proof (proj1 (proj1 (offers_paths E O) _ _ _ Ol)) as P.
  apply FOP_map in P. pose proof (subseq_FOP _ _ _ Sl P) as P'. destruct (ForallOrdPairs_In P' c d Ic Id) as [H|[H|H]]; auto.
Qed.
Lemma blank_reaches E t p u : walks E t p u -> Forall (fun i => 0 <= i)%Z p -> forall z, blank E t z -> exists x, reaches z p x /\ blank E u x.
Proof.
  induction 1 as [t|t fs i f path u K N Wk IH|t e path u K Wk IH]; intros D z B.
  - exists z. split; [constructor|exact B].
  - inversion D; subst. inversion B; subst; try congruence; try (match goal with A : _ \/ _ |- _ => destruct A; congruence end). assert (fs0 = fs) by congruence. subst fs0.
    destruct (Forall2_nth _ _ _ H0 _ _ N) as (x & Nx & Bx). destruct (IH H2 x Bx) as (y & Ry & By). exists y. split; [econstructor; eassumption|exact By].
  - inversion D; subst. lia.
Qed.
Lemma stored_fields_at E O cs : NoDup (map ckey cs) -> (forall c d, In c cs -> In d cs -> c = d \/ before (cindex c) (cindex d) \/ before (cindex d) (cindex c)) ->
  forall ms v v', NoDup (map fst ms) -> stored_fields E O cs ms v v' -> forall c x, In c cs -> reaches v (cindex c) x ->
  (~ In (ckey c) (map fst ms) -> reaches v' (cindex c) x) /\ (forall j, In (ckey c, j) ms -> exists y, reaches v' (cindex c) y /\ stored E O (ctype c) x j y).
Proof.
  intros Nk Ap. induction ms as [|[k j] ms IH]; intros v v' Nm St c x Ic R; inversion St as [|? ? ? ? ? ? Nin St'|? ? ? ? ? d x0 y v1 ? Ff P Sy St']; subst.
  - split; [auto|intros j []].
  - inversion Nm; subst. destruct (IH v v' ltac:(assumption) St' c x Ic R) as [A B]. cbn [map fst In]. split; [intro H; apply A; tauto|].
    intros j0 [I|I]; [|auto]. injection I as -> ->. exfalso. apply Nin. apply in_map. exact Ic.
  - inversion Nm; subst. destruct Ff as (a & b & Ec & Ek & Na). assert (Id : In d cs) by (rewrite Ec; apply in_elt).
    assert (Un : ckey c = k -> c = d).
    { intro H. destruct (Ap c d Ic Id) as [A|_]; auto. clear -Nk Ic Id H Ek. subst k. induction cs as [|e l IH]; [destruct Ic|]. cbn in Nk. inversion Nk; subst. destruct Ic as [<-|Ic], Id as [<-|Id]; auto.
      - exfalso. apply H2. rewrite H. apply in_map. exact Id.
      - exfalso. apply H2. rewrite <- H. apply in_map. exact Ic. }
    destruct (Ap c d Ic Id) as [<-|Ap'].
    + destruct (put_reaches _ _ _ _ _ P) as [R1 R2]. assert (x0 = x) by (eapply reaches_same; eassumption). subst x0. destruct (IH v1 v' ltac:(assumption) St' c y Ic R2) as [A B]. split.
      * cbn [map fst In]. intro H. exfalso. apply H. left. congruence.
      * intros j0 [I|I]; [injection I as _ <-; exists y; split; auto; apply A; congruence|]. exfalso. match goal with A : ~ In ?k (map fst ms) |- _ => apply A end. subst k. exact (in_map fst _ _ I).
    + assert (R' : reaches v1 (cindex c) x) by (eapply put_other; [exact P| |exact R]; tauto). destruct (IH v1 v' ltac:(assumption) St' c x Ic R') as [A B]. cbn [map fst In]. split; [intro H; apply A; tauto|].
      intros j0 [I|I]; [|auto]. injection I as I <-. exfalso. rewrite (Un (eq_sym I)) in Ap'. destruct Ap' as [(u & i & j1 & s & q & E1 & E2 & L)|(u & i & j1 & s & q & E1 & E2 & L)]; rewrite E1 in E2; apply app_inv_head in E2; injection E2 as E2 _; lia.
Qed.

(* ---- values that are dropped ---- *)
Lemma bare_down E O a b : reads E O a b -> bare E O a -> bare E O b.
Proof. intros R B u Ru. apply B. eapply reads_trans; eassumption. Qed.
Lemma bare_silent E O t : bare E O t -> silent E O t.
Proof. intro B. exact (proj1 (proj2 (B t (rd_here _ _ _)))). Qed.
Lemma reads_elem E O t k e : kindOf E t = Some k -> In e (elems k) -> reads E O t e.
Proof. intros. eapply rd_elem; [eassumption|eassumption|constructor]. Qed.
Ltac kindseq := repeat match goal with A : kindOf ?E ?t = Some ?x, B : kindOf ?E ?t = Some ?y |- _ => first [constr_eq x y; fail 1 | rewrite A in B; first [discriminate B|injection B; intros; subst; clear B]] end.
Lemma decodable_kind E O t : decodable E O t -> kindOf E t <> Some (KIface true) /\ kindOf E t <> Some KOther.
Proof.
  intro Dc. destruct (Dc t (rd_here _ _ _)) as (T & Ty & _ & Hk). rewrite (typeOf_kindOf _ _ _ Ty). split; intro H; injection H as H; rewrite H in Hk; exact Hk.
Qed.
Lemma empty_agree E O addr : forall n v t z, vdepth v <= n -> bare E O t -> decodable E O t -> ~ hazard E O t -> empty E O addr t v -> blank E t z -> agree E O t v z.
Proof.
  induction n as [|n IH]; intros v t z D B Dc Hz Em Bl; [pose proof (vdepth_pos v); lia|]. pose proof (bare_silent _ _ _ B) as Si. destruct (decodable_kind _ _ _ Dc) as [NI NO].
  assert (NM : forall k e, kindOf E t <> Some (KMap k e)) by (intros k e K; apply Hz; exists t; split; [constructor|left; eauto]).
  inversion Em; subst; try (exfalso; eapply silent_asks; eassumption); try (exfalso; eapply NM; eassumption); try (exfalso; match goal with A : _ \/ _ |- _ => destruct A; contradiction end);
    inversion Bl; subst; kindseq; try (match goal with A : _ \/ _ |- _ => destruct A; kindseq; fail end); try constructor; try assumption; try congruence.
  eapply ag_array; [eassumption|]. match goal with K : kindOf E t = Some (KArray _ ?e) |- _ => assert (Re : reads E O t e) by (eapply reads_elem; [exact K|left; reflexivity]) end.
  assert (Hx : forall x, In x l -> vdepth x <= n) by (intros x Ix; cbn [vdepth] in D; pose proof (In_max vdepth l x Ix); lia).
  clear Em Bl D. match goal with K : kindOf E t = Some (KArray _ _) |- _ => clear K end. match goal with A : length ?a = length ?b |- _ => revert b A H4 end.
  rename H2 into Fe. induction Fe as [|x l Ex Fe IHl]; intros l0 Ln Fb; (destruct l0 as [|y l0]; [|try discriminate Ln]); try discriminate; constructor.
  - inversion Fb; subst. eapply IH; eauto; [apply Hx; left; reflexivity|eapply bare_down; eassumption|eapply decodable_down; eassumption|]. intro Hh. apply Hz. eapply hazard_up; eassumption.
  - inversion Fb; subst. apply IHl; auto. intros. apply Hx. right. assumption.
Qed.
Lemma dropped_agree E O addr : embeds_structs E -> forall c v, dropped E O addr c v -> bare E O (ctype c) -> decodable E O (ctype c) -> ~ hazard E O (ctype c) -> forall z, typed E (ctype c) v -> blank E (ctype c) z -> agree E O (ctype c) v z.
Proof.
  intro ES. induction 1 as [c v Oc Nf Em|c v Oc Fw As|c v cs Oc Fw Si Sf Hd IH]; intros B Dc Hz z T Bl.
  - eapply empty_agree; eauto.
  - exfalso. eapply silent_asks; [apply bare_silent; exact B|exact As].
  - destruct Fw as (X & fs & Ty & Kx & _). pose proof (typeOf_kindOf _ _ _ Ty) as K. rewrite Kx in K. inv_typed T. inversion Bl; subst; kindseq; try (match goal with A : _ \/ _ |- _ => destruct A; kindseq; fail end).
    eapply ag_struct; [eassumption|exact Sf|]. intros d x Id Rx. destruct (structFields_walks E O _ cs ES Sf d Id) as (i & r & _ & Wk).
    destruct (Dc _ (rd_here _ _ _)) as (X' & Ty' & _ & Hk). rewrite Ty in Ty'. injection Ty' as <-. rewrite Kx in Hk. destruct Hk as (cs' & Sf' & Dr). rewrite Sf in Sf'. injection Sf' as <-. rewrite Forall_forall in Dr.
    destruct (blank_reaches _ _ _ _ Wk (Dr d Id) _ Bl) as (y & Ry & By). exists y. split; auto.
    assert (Rd : reads E O (ctype c) (ctype d)) by (eapply rd_field; [eassumption|exact Sf|exact Id|constructor]).
    destruct (codec_field E O _ cs _ d ES Sf T Id) as (o & Eo & Ho). pose proof (proj2 (fieldByIndex_reaches _ _ _ Eo x) Rx) as ->. destruct Ho as (Tx & _).
    eapply IH; eauto; [eapply bare_down; eassumption|eapply decodable_down; eassumption|]. intro Hh. apply Hz. eapply hazard_up; eassumption.
Qed.

(* ---- what comes back ---- *)
Definition backs (E : env) (O : opts) (t : tid) (v : gv) (j : jval) : Prop :=
  ~ mismatch E O t j /\ (forall z v', blank E t z -> stored E O t z j v' -> agree E O t v v') /\ (j = JNull -> v = VPtr None \/ v = VIface None).
Ltac by_kinds := kindseq; try discriminate; try congruence; try (match goal with A : _ \/ _ |- _ => destruct A; kindseq; try discriminate; congruence end);
  try (match goal with A : kindOf ?E tIface = _ |- _ => change (kindOf E tIface) with (Some (KIface false)) in A; discriminate A end).
Ltac inv_stored S := inversion S; subst; by_kinds.
Ltac inv_mismatch M := inversion M; subst; by_kinds.
Lemma backs_bool E O t b : kindOf E t = Some KBool -> backs E O t (VBool b) (if b then JTrue else JFalse).
Proof.
  intro K. split; [|split].
  - intro M. destruct b; inv_mismatch M; match goal with A : ~ takes _ _ |- _ => apply A; exact I end.
  - intros z v' _ S. destruct b; inv_stored S; match goal with A : _ \/ _ |- _ => destruct A as [[A ->]|[[A|A] ->]]; try discriminate A end; constructor.
  - destruct b; discriminate.
Qed.
Lemma mod_range_int n k bits : (1 <= bits)%Z -> (- 2 ^ (bits - 1) <= n < 2 ^ (bits - 1))%Z -> (- 2 ^ (bits - 1) <= n + k * 2 ^ bits < 2 ^ (bits - 1))%Z -> (n + k * 2 ^ bits = n)%Z.
Proof. intros B H H'. replace (2 ^ bits)%Z with (2 * 2 ^ (bits - 1))%Z in * by (rewrite <- Z.pow_succ_r by lia; f_equal; lia). assert (k = 0)%Z by nia. subst. lia. Qed.
Lemma mod_range_uint n k bits : (1 <= bits)%Z -> (0 <= n < 2 ^ bits)%Z -> (0 <= n + k * 2 ^ bits < 2 ^ bits)%Z -> (n + k * 2 ^ bits = n)%Z.
Proof. intros B H H'. assert (k = 0)%Z by nia. subst. lia. Qed.
Lemma backs_int E O t bits z : wf_types E -> kindOf E t = Some (KInt bits) -> float_int z -> (- 2 ^ (bits - 1) <= z < 2 ^ (bits - 1))%Z -> backs E O t (VInt z) (JNum (FormatInt z)).
Proof.
  intros W K F B. pose proof (bits_pos _ _ _ W (or_introl K)) as Bp.
  assert (B64 : (- 2 ^ 63 <= z < 2 ^ 63)%Z) by (assert (2 ^ (bits - 1) <= 2 ^ 63)%Z by (apply Z.pow_le_mono_r; lia); lia). split; [|split; [|discriminate]].
  - intro M. inv_mismatch M; [match goal with A : ~ takes _ _ |- _ => apply A; exact I end|]. match goal with A : forall z, ~ int_of _ z |- _ => apply (A z) end. apply int_back; auto.
  - intros z0 v' _ S. inv_stored S. match goal with A : int_of _ _ |- _ => apply int_back in A; auto; subst end. erewrite mod_range_int; [constructor|lia|eassumption|eassumption].
Qed.
Lemma backs_uint E O t bits z : wf_types E -> kindOf E t = Some (KUint bits) -> float_int z -> (0 <= z < 2 ^ bits)%Z -> backs E O t (VUint z) (JNum (FormatUint (Z.to_N z))).
Proof.
  intros W K F B. pose proof (bits_pos _ _ _ W (or_intror K)) as Bp.
  assert (B64 : (0 <= z < 2 ^ 64)%Z) by (assert (2 ^ bits <= 2 ^ 64)%Z by (apply Z.pow_le_mono_r; lia); lia). split; [|split; [|discriminate]].
  - intro M. inv_mismatch M; [match goal with A : ~ takes _ _ |- _ => apply A; exact I end|]. match goal with A : forall z, ~ uint_of _ z |- _ => apply (A z) end. apply uint_back; auto.
  - intros z0 v' _ S. inv_stored S. match goal with A : uint_of _ _ |- _ => apply uint_back in A; auto; subst end. erewrite mod_range_uint; [constructor|lia|eassumption|eassumption].
Qed.
Lemma float_of_det E s a b : float_of E s a -> float_of E s b -> a = b.
Proof. intros [[A N]|[A N]] [[B M]|[B M]]; congruence. Qed.
Lemma backs_float32 E O t f s g : kindOf E t = Some KFloat32 -> float_of E s g -> feq f (widen (to32 g)) = true -> backs E O t (VFloat f) (JNum s).
Proof.
  intros K Fo Fe. split; [|split; [|discriminate]].
  - intro M. inv_mismatch M; [match goal with A : ~ takes _ _ |- _ => apply A; exact I end|]. match goal with A : forall f, ~ float_of _ _ f |- _ => exact (A g Fo) end.
  - intros z v' _ S. inv_stored S. match goal with A : float_of _ _ ?h |- agree _ _ _ _ (VFloat (widen (to32 ?h))) => rewrite (float_of_det _ _ _ _ A Fo) end. apply ag_float. exact Fe.
Qed.
Lemma backs_float64 E O t f s g : kindOf E t = Some KFloat64 -> float_of E s g -> feq f g = true -> backs E O t (VFloat f) (JNum s).
Proof.
  intros K Fo Fe. split; [|split; [|discriminate]].
  - intro M. inv_mismatch M; [match goal with A : ~ takes _ _ |- _ => apply A; exact I end|]. match goal with A : forall f, ~ float_of _ _ f |- _ => exact (A g Fo) end.
  - intros z v' _ S. inv_stored S. match goal with A : float_of _ _ ?h |- agree _ _ _ _ (VFloat ?h) => rewrite (float_of_det _ _ _ _ A Fo) end. apply ag_float. exact Fe.
Qed.
Lemma backs_string E O t s w : kindOf E t = Some KString -> Unescaped w = Ok s -> backs E O t (VString s) (JStr w).
Proof.
  intros K U. split; [|split; [|discriminate]].
  - intro M. inv_mismatch M. match goal with A : ~ takes _ _ |- _ => apply A; exact I end.
  - intros z v' _ S. inv_stored S. match goal with A : Unescaped w = Ok _ |- _ => rewrite U in A; injection A as <- end. constructor.
Qed.
Lemma backs_iface E O v j : goes E v j -> backs E O tIface v j.
Proof.
  intros (N & G & Z). split; [|split; [|auto]].
  - intro M. inversion M; subst; try (match goal with A : kindOf ?E tIface = _ |- _ => change (kindOf E tIface) with (Some (KIface false)) in A; try discriminate A end); try contradiction.
    + match goal with A : Some _ = Some _ |- _ => injection A as <- end. match goal with A : ~ takes _ _ |- _ => apply A; exact I end.
    + match goal with A : _ \/ _ |- _ => destruct A; discriminate end.
  - intros z v' _ S. inversion S; subst; try (match goal with A : kindOf ?E tIface = _ |- _ => change (kindOf E tIface) with (Some (KIface false)) in A; discriminate A end); try (match goal with A : _ \/ _ |- _ => destruct A; discriminate end); auto.
Qed.
Lemma backs_ptr_nil E O t e : kindOf E t = Some (KPtr e) -> backs E O t (VPtr None) JNull.
Proof.
  intro K. split; [|split; [|auto]].
  - intro M. inv_mismatch M. match goal with A : ~ takes _ _ |- _ => apply A; exact I end.
  - intros z v' _ S. inv_stored S. constructor.
Qed.
Lemma backs_ptr E O t e x j : kindOf E t = Some (KPtr e) -> x <> VPtr None -> x <> VIface None -> backs E O e x j -> backs E O t (VPtr (Some x)) j.
Proof.
  intros K N1 N2 (Mm & St & Z). assert (Nj : j <> JNull) by (intro H; destruct (Z H); contradiction). split; [|split; [|intro H; contradiction]].
  - intro M. inv_mismatch M; try contradiction. match goal with A : ~ takes _ _ |- _ => apply A; exact I end.
  - intros z v' B S. inversion B; subst; by_kinds. inv_stored S; try contradiction. eapply ag_ptr; [eassumption|]. eapply St; eassumption.
Qed.
Lemma backs_each E O e l js : Forall2 (backs E O e) l js -> forall z l', Forall (blank E e) z -> stored_each E O e z js l' -> Forall2 (agree E O e) l l'.
Proof.
  induction 1 as [|x j l js (_ & H & _) F IH]; intros z l' B S; inversion S; subst; [constructor|]. inversion B; subst. constructor; [eapply H; eassumption|eapply IH; eassumption].
Qed.
Lemma backs_slice E O t e l s js : kindOf E t = Some (KSlice e) -> Forall2 (backs E O e) l js -> backs E O t (VSlice (Some (l, s))) (JArr js).
Proof.
  intros K F. split; [|split; [|discriminate]].
  - intro M. inv_mismatch M; [match goal with A : ~ takes _ _ |- _ => apply A; exact I end|]. match goal with A : In ?j js, B : mismatch _ _ _ ?j |- _ => destruct (Forall2_In_r _ _ _ _ F A) as (x & _ & Nm & _); contradiction end.
  - intros z v' B S. inversion B; subst; by_kinds. inv_stored S. match goal with A : slots _ _ None _ _ _ |- _ => destruct A as (_ & Bl & ->) end. eapply ag_slice; [eassumption|]. eapply backs_each; eassumption.
Qed.
Lemma backs_slice_nil E O t e : kindOf E t = Some (KSlice e) -> backs E O t (VSlice None) (JArr []).
Proof.
  intro K. split; [|split; [|discriminate]].
  - intro M. inv_mismatch M; match goal with A : ~ takes _ _ |- _ => apply A; exact I | A : In _ [] |- _ => destruct A end.
  - intros z v' B S. inversion B; subst; by_kinds. inv_stored S. match goal with A : stored_each _ _ _ _ [] _ |- _ => inversion A; subst end. apply ag_nil.
Qed.
Lemma app_split {A} (a b c d : list A) : a ++ b = c ++ d -> length a = length c -> a = c /\ b = d.
Proof. revert c. induction a as [|x a IH]; intros [|y c] H L; cbn in *; try discriminate; auto. injection H as -> H. destruct (IH c H) as [-> ->]; auto. Qed.
Lemma backs_array E O t n e l js : kindOf E t = Some (KArray n e) -> length l = n -> Forall2 (backs E O e) l js -> backs E O t (VArray l) (JArr js).
Proof.
  intros K L F. pose proof (Forall2_length _ _ _ F) as Lj. split; [|split; [|discriminate]].
  - intro M. inv_mismatch M; [match goal with A : ~ takes _ _ |- _ => apply A; exact I end|].
    match goal with A : nth_error js _ = Some ?j, B : mismatch _ _ _ ?j |- _ => destruct (Forall2_In_r _ _ _ _ F (nth_error_In _ _ A)) as (x & _ & Nm & _); contradiction end.
  - intros z v' B S. inversion B; subst; by_kinds. inv_stored S.
    + eapply ag_array; [eassumption|]. match goal with A : stored_each _ _ _ ?a js ?b |- _ => destruct (stored_each_length _ _ _ _ _ _ A) as [L1 L2]; pose proof A as Se end.
      repeat match goal with A : _ = length (_ ++ _) |- _ => rewrite app_length in A end. assert (l2 = []) by (destruct l2; auto; cbn in *; lia). subst l2.
      match goal with A : length ?a = length (@nil gv) |- _ => destruct a; [|discriminate A] end. rewrite !app_nil_r in *. eapply backs_each; [exact F| |exact Se]. assumption.
    + eapply ag_array; [eassumption|]. match goal with A : stored_each _ _ _ ?a ?b ?c |- _ => destruct (stored_each_length _ _ _ _ _ _ A) as [L1 L2]; pose proof A as Se end.
      rewrite app_length in *. assert (more = []) by (destruct more; auto; cbn in *; lia). subst more. rewrite app_nil_r in F. eapply backs_each; [exact F| |exact Se]. assumption.
Qed.

(* ---- structs ---- *)
Inductive imaged (E : env) (O : opts) (addr : bool) (v : gv) : list codec -> list (bytes * jval) -> Prop :=
| im_end : imaged E O addr v [] []
| im_unreachable c cs ms : (forall x, ~ reaches v (cindex c) x) -> imaged E O addr v cs ms -> imaged E O addr v (c :: cs) ms
| im_dropped c x cs ms : reaches v (cindex c) x -> dropped E O addr c x -> imaged E O addr v cs ms -> imaged E O addr v (c :: cs) ms
| im_member c x cs ms j : reaches v (cindex c) x -> backs E O (ctype c) x j -> imaged E O addr v cs ms -> imaged E O addr v (c :: cs) ((ckey c, j) :: ms).
Lemma wrote_imaged E O addr v cs ms : (forall c, In c cs -> rfc_chars (ckey (fst c))) -> wrote (fun c => dropped E O addr (fst c)) (fun c x w => exists j, plain j w /\ backs E O (ctype (fst c)) x j) v cs ms ->
  exists mjs, imaged E O addr v (map fst cs) mjs /\ Forall2 memberJ mjs ms.
Proof.
  intros R W. induction W as [|c cs ms Nr W IH|c x cs ms Rx Dr W IH|c x cs ms w Rx Nd (j & J & B) W IH].
  - exists []. split; constructor.
  - destruct IH as (mjs & Im & F); [intros; apply R; right; assumption|]. exists mjs. split; auto. apply im_unreachable; auto.
  - destruct IH as (mjs & Im & F); [intros; apply R; right; assumption|]. exists mjs. split; auto. eapply im_dropped; eauto.
  - destruct IH as (mjs & Im & F); [intros; apply R; right; assumption|]. exists ((ckey (fst c), j) :: mjs). split; [eapply im_member; eauto|]. constructor; auto. split; [reflexivity|]. split; [apply R; left; reflexivity|exact J].
Qed.
Lemma imaged_from E O addr v cs mjs : imaged E O addr v cs mjs -> forall k j, In (k, j) mjs -> exists c x, In c cs /\ ckey c = k /\ reaches v (cindex c) x /\ backs E O (ctype c) x j.
Proof.
  induction 1 as [|c cs ms Nr W IH|c x cs ms Rx Dr W IH|c x cs ms j0 Rx B W IH]; intros k j I; [destruct I| | |].
  - destruct (IH k j I) as (d & y & Id & H). exists d, y. split; [right; exact Id|exact H].
  - destruct (IH k j I) as (d & y & Id & H). exists d, y. split; [right; exact Id|exact H].
  - destruct I as [I|I]; [injection I as <- <-; exists c, x; split; [left; reflexivity|auto]|]. destruct (IH k j I) as (d & y & Id & H). exists d, y. split; [right; exact Id|exact H].
Qed.
Lemma imaged_keys E O addr v cs mjs : imaged E O addr v cs mjs -> subseq (map fst mjs) (map ckey cs).
Proof. induction 1; cbn; [constructor|apply sub_drop; assumption|apply sub_drop; assumption|apply sub_keep; assumption]. Qed.
Lemma imaged_cases E O addr v cs mjs : imaged E O addr v cs mjs -> forall c x, In c cs -> reaches v (cindex c) x -> dropped E O addr c x \/ In (ckey c) (map fst mjs).
Proof.
  induction 1 as [|c cs ms Nr W IH|c x cs ms Rx Dr W IH|c x cs ms j0 Rx B W IH]; intros d y I R; [destruct I| | |]; destruct I as [<-|I].
  - exfalso. eapply Nr. exact R.
  - eapply IH; eassumption.
  - left. rewrite (reaches_same _ _ _ _ R Rx). exact Dr.
  - eapply IH; eassumption.
  - right. left. reflexivity.
  - destruct (IH d y I R); [left|right; right]; assumption.
Qed.
Lemma keys_once cs c d : NoDup (map ckey cs) -> In c cs -> In d cs -> ckey c = ckey d -> c = d.
Proof.
  induction cs as [|e l IH]; intros N Ic Id H; [destruct Ic|]. cbn in N. inversion N; subst. destruct Ic as [<-|Ic], Id as [<-|Id]; auto.
  - exfalso. apply H2. rewrite H. apply in_map. exact Id.
  - exfalso. apply H2. rewrite <- H. apply in_map. exact Ic.
Qed.
Lemma backs_struct E O addr t fs cs l mjs : embeds_structs E -> kindOf E t = Some (KStruct fs) -> structFields E O t = Ok cs -> bare E O t -> decodable E O t -> ~ hazard E O t -> typed E t (VStruct l) ->
  imaged E O addr (VStruct l) cs mjs -> backs E O t (VStruct l) (JObj mjs).
Proof.
  intros ES K Sf B Dc Hz T Im. pose proof (proj2 (proj2 (B t (rd_here _ _ _))) cs Sf) as Nk. assert (Nm : NoDup (map fst mjs)) by (eapply NoDup_subseq; [eapply imaged_keys; exact Im|exact Nk]).
  assert (Un : forall c j x, In c cs -> In (ckey c, j) mjs -> reaches (VStruct l) (cindex c) x -> backs E O (ctype c) x j).
  { intros c j x Ic Ij Rx. destruct (imaged_from _ _ _ _ _ _ Im _ _ Ij) as (d & y & Id & Ek & Ry & By). assert (d = c) by (eapply keys_once; eassumption). subst d. rewrite (reaches_same _ _ _ _ Rx Ry). exact By. }
  split; [|split; [|discriminate]].
  - intro M. inv_mismatch M; [match goal with A : ~ takes _ _ |- _ => apply A; exact I end|]. rewrite Sf in *. match goal with A : Ok _ = Ok _ |- _ => injection A as <- end.
    destruct (imaged_from _ _ _ _ _ _ Im _ _ ltac:(eassumption)) as (d & y & Id & Ek & Ry & (Nmm & _)).
    match goal with A : field_for cs _ ?c |- _ => destruct A as (a & b & Ec & Eck & _); assert (Ic : In c cs) by (rewrite Ec; apply in_elt); assert (d = c) by (eapply keys_once; eauto; congruence) end. subst. contradiction.
  - intros z v' Bl S. pose proof Bl as Bl'. inversion Bl; subst; by_kinds. inv_stored S. match goal with A : structFields E O t = Ok ?x |- _ => rewrite Sf in A; injection A as <- end.
    match goal with A : stored_fields _ _ _ _ _ _ |- _ => rename A into St end.
    assert (Hv : forall ms a v', stored_fields E O cs ms (VStruct a) v' -> exists l', v' = VStruct l').
    { clear St S. induction ms as [|[k j] ms IH]; intros a u St; inversion St; subst; eauto.
      match goal with A : put _ _ _ _ _ |- _ => inversion A; subst end; [|eauto]. exfalso. match goal with A : field_for cs _ ?c |- _ => destruct A as (a0 & b0 & Ec & _); assert (Ic : In c cs) by (rewrite Ec; apply in_elt) end.
      destruct (structFields_walks E O _ cs ES Sf _ Ic) as (i & r & Ei & _). congruence. }
    destruct (Hv _ _ _ St) as (l' & ->). eapply ag_struct; [exact K|exact Sf|]. intros c x Ic Rx.
    destruct (structFields_walks E O _ cs ES Sf c Ic) as (i & r & _ & Wk). destruct (Dc _ (rd_here _ _ _)) as (X & Ty & _ & Hk). pose proof (typeOf_kindOf _ _ _ Ty) as Kx. rewrite K in Kx. injection Kx as Kx. rewrite <- Kx in Hk.
    destruct Hk as (cs' & Sf' & Dr). rewrite Sf in Sf'. injection Sf' as <-. rewrite Forall_forall in Dr.
    destruct (blank_reaches _ _ _ _ Wk (Dr c Ic) _ Bl') as (y & Ry & By).
    destruct (stored_fields_at E O cs Nk (codecs_apart _ _ _ _ Sf) _ _ _ Nm St c y Ic Ry) as [Un1 Un2].
    destruct (in_dec (list_eq_dec Byte.byte_eq_dec) (ckey c) (map fst mjs)) as [Ik|Ik].
    + apply in_map_iff in Ik as ([k j] & Ek & Ij). cbn [fst] in Ek. subst k. destruct (Un2 j Ij) as (y' & Ry' & Sy). exists y'. split; auto. destruct (Un c j x Ic Ij Rx) as (_ & H & _). eapply H; eassumption.
    + exists y. split; [auto|]. destruct (imaged_cases _ _ _ _ _ _ Im c x Ic Rx) as [Dx|Dx]; [|contradiction].
      assert (Rd : reads E O t (ctype c)) by (eapply rd_field; [exact K|exact Sf|exact Ic|constructor]).
      destruct (codec_field E O _ cs _ c ES Sf T Ic) as (o & Eo & Ho). pose proof (proj2 (fieldByIndex_reaches _ _ _ Eo x) Rx) as ->. destruct Ho as (Tx & _).
      eapply dropped_agree; eauto; [eapply bare_down; eassumption|eapply decodable_down; eassumption|]. intro Hh. apply Hz. eapply hazard_up; eassumption.
Qed.

(* ---- Marshal ---- *)
Lemma silent_custom E O t v addr : silent E O t -> runCustom E (newCustomOmiter E O t) t addr v = Ok None.
Proof.
  intro S. unfold newCustomOmiter. destruct (typeOf E t) as [T|] eqn:Ty; [|reflexivity]. destruct (S T Ty) as [A B]. rewrite A. destruct (tkind T); try (rewrite B; reflexivity).
  destruct (typeOf E e) as [X|] eqn:Te; [|reflexivity]. rewrite (B X eq_refl). reflexivity.
Qed.
Lemma newOmiter_bare E O addr : forall fuel t v, bare E O t -> typed E t v -> vdepth v <= fuel -> exists b, newOmiter fuel E O t addr v = Ok b.
Proof.
  induction fuel as [|k IH]; intros t v B T L; [pose proof (vdepth_pos v); lia|]. cbn [newOmiter]. rewrite (silent_custom E O t v addr (bare_silent _ _ _ B)). cbn [bind].
  destruct (typed_typeOf _ _ _ T) as (X & Ty). rewrite Ty. pose proof (typeOf_kindOf _ _ _ Ty) as K.
  destruct (tkind X) as [| | | | | |[]|e|e|n e|kt e|fs|] eqn:Kx; try (eexists; reflexivity); inv_typed T; cbn [isNil]; try (eexists; reflexivity).
  assert (Ln : length l = n) by congruence. assert (e0 = e) by congruence. subst e0. rewrite Ln, Nat.eqb_refl. apply omitAll_total. intros x I. apply IH.
  - eapply bare_down; [|exact B]. eapply reads_elem; [exact K|left; reflexivity].
  - rewrite Forall_forall in H1. apply H1. exact I.
  - cbn [vdepth] in L. eapply list_max_In; eassumption.
Qed.
Lemma omit_bare E G O addr : embeds_structs E -> sound E O G ->
  forall fuel c v, serves E G (snd (snd c)) (IEnc (ctype (fst c))) (chints (fst c)) -> bare E O (ctype (fst c)) -> typed E (ctype (fst c)) v -> vdepth v <= fuel -> exists b, omit fuel E G O addr c v = Ok b.
Proof.
  intros ES Sd. induction fuel as [|k IH]; intros c v Sv B T L; [pose proof (vdepth_pos v); lia|]. cbn [omit]. destruct (hasHint (chints (fst c)) hintOmitempty); cbn [negb]; [|eauto].
  destruct (serves_cases E O G _ _ _ Sd Sv) as (X & Ty & Cs). cbn [itype] in *.
  destruct Cs as [[Hd ->]|[(l0 & fs & K & -> & Hz & Sc)|(Hd & Ns & h' & p & Hh & -> & Sc)]]; [apply newOmiter_bare; assumption| |apply newOmiter_bare; assumption].
  rewrite (silent_custom E O _ v addr (bare_silent _ _ _ B)). cbn [bind]. destruct Sc as (_ & _ & _ & _ & _ & Sf & F). rewrite Forall_forall in F. pose proof (typeOf_kindOf _ _ _ Ty) as Kf. rewrite K in Kf.
  apply omitFields_total. intros d Id. destruct (codec_field E O _ _ v (fst d) ES Sf T (in_map fst _ _ Id)) as (o & Eo & Ho). exists o. split; auto. destruct o as [x|]; auto. destruct Ho as (Tx & _ & Dx). apply IH; [exact (proj2 (F d Id))| |assumption|lia].
  eapply bare_down; [|exact B]. eapply rd_field; [exact Kf|exact Sf|exact (in_map fst _ _ Id)|constructor].
Qed.
Lemma go_kept_iface E v : go_kept E v -> exists x, v = VIface x.
Proof. destruct 1; eauto. Qed.
Lemma encode_round E O : wf_types E -> embeds_structs E -> (forall u, ~ cyclic E D u) -> ftoa_spec (ftoa E) -> tags_json E O -> walks_maps E ->
  forall fuel G o t h addr b v, sound E O G -> serves E G o (IEnc t) h -> vdepth v <= fuel -> rawOK h -> decodable E O t -> ~ hazard E O t -> bare E O t -> typed E t v -> survives E O t v ->
  exists w j, encode fuel E G O o addr b v = Ok (b ++ w, None) /\ plain j w /\ backs E O t v j.
Proof.
  intros W ES NC FS TJ WM.
  induction fuel as [|k IH]; intros G o t h addr b v Sd Sv L Rh Dc Hz B T Su; [pose proof (vdepth_pos v); lia|].
  assert (Down : forall u, reads E O t u -> decodable E O u /\ ~ hazard E O u /\ bare E O u).
  { intros u R. split; [eapply decodable_down; eassumption|]. split; [intro Hh; apply Hz; eapply hazard_up; eassumption|eapply bare_down; eassumption]. }
  destruct (B t (rd_here _ _ _)) as ((X & Ty & NA & NJ & NT) & Si & _). pose proof (typeOf_kindOf _ _ _ Ty) as K.
  assert (Ls : forall e l adr pre p h, serves E G p (IEnc e) h -> rawOK h -> reads E O t e -> (forall x, In x l -> vdepth x <= k) -> Forall (typed E e) l -> Forall (survives E O e) l ->
    exists ws js, encodeList (encode k E G O p adr) true l (append1 pre delimBeginArray) = Ok (pre ++ x5b :: join x2c ws ++ [x5d], None) /\ Forall2 plain js ws /\ Forall2 (backs E O e) l js).
  { intros e l adr pre p h1 Sp Rp R Lx Tl Sl. destruct (Down e R) as (De & He & Be).
    assert (H : forall x b', In x l -> exists w j, encode k E G O p adr b' x = Ok (b' ++ w, None) /\ plain j w /\ backs E O e x j) by (intros x b' I; rewrite Forall_forall in Tl, Sl; apply (IH G p e h1); auto).
    destruct (encodeList_fine (encode k E G O p adr) l ltac:(intros x b' I; destruct (H x b' I) as (w & j & -> & _); eauto) true (append1 pre delimBeginArray)) as (u & Eo).
    assert (Pt : part (encodeList (encode k E G O p adr) true l (append1 pre delimBeginArray)) (append1 pre delimBeginArray) (fun w => exists ws, Forall2 (fun x w => exists j, plain j w /\ backs E O e x j) l ws /\ w = sepd true ws ++ [x5d])).
    { apply encodeList_part. intros x b' I out Ex. destruct (H x b' I) as (w & j & En & J & Gj). rewrite En in Ex. injection Ex as <-. eauto. }
    destruct (Pt u Eo) as (w & -> & ws & F & ->). destruct (Forall2_choose _ _ _ _ F) as (js & F1 & F2). exists ws, js. split; [|auto]. rewrite Eo. unfold append1. rewrite <- app_assoc. reflexivity. }
  assert (Kd : (forall l, tkind X <> KStruct l) -> exists h' p, (h' = h \/ exists k e, tkind X = KMap k e) /\ nth_error G o = Some (CKind (IEnc t) h' p) /\
    match tkind X with KPtr e | KSlice e | KArray _ e => serves E G p (IEnc e) h' | KMap _ e => serves E G p (IEnc e) 0 | _ => True end) by (intro Ns; apply (serves_kind E O G o t h X Sd Sv Ty); [repeat split; assumption|exact Ns]).
  cbn [encode].
  inversion Su as [? x Kt|? bits z Kt Fi|? bits z Kt Fi|? f Kt (s & g & Ws & Fo & Fe)|? f Kt (s & g & Ws & Fo & Fe)|? s Kt Vs Ps|? Gk|? e Kt|? e x Kt N1 N2 Sx|? e Kt|? e l s Kt Fl|? n e l Kt Fl|? fs cs l Kt Sf Fc]; subst;
    try (rewrite K in Kt; injection Kt as Kt; rewrite Kt in *); lazymatch goal with G : go_kept _ _ |- _ => idtac | _ => inv_typed T end;
    try (destruct (Kd ltac:(discriminate)) as (h' & p & Hh & Nx & Sk); assert (h' = h) by (destruct Hh as [|(? & ? & Hh)]; [assumption|discriminate Hh]); subst h'; clear Kd Hh; rewrite Nx, Ty, Kt; clear Nx).
  - exists (if x then strTrue else strFalse), (if x then JTrue else JFalse). split; [reflexivity|]. split; [destruct x; constructor|]. apply backs_bool. exact K.
  - exists (FormatInt z), (JNum (FormatInt z)). split; [reflexivity|]. split; [apply v_num; apply FormatInt_number|]. kindseq. eapply backs_int; eauto.
  - exists (FormatUint (Z.to_N z)), (JNum (FormatUint (Z.to_N z))). split; [reflexivity|]. split; [apply v_num; apply FormatUint_number|]. kindseq. eapply backs_uint; eauto.
  - destruct (writes_append E O f s b FS Ws) as (En & R). exists s, (JNum s). split; [exact En|]. split; [apply v_num; exact R|]. eapply backs_float32; eauto.
  - destruct (writes_append E O f s b FS Ws) as (En & R). exists s, (JNum s). split; [exact En|]. split; [apply v_num; exact R|]. eapply backs_float64; eauto.
  - assert (Hs : exists html, (if hasHint h hintHTML then encodeString true b s else if hasHint h hintRaw then Ok (append1 (append1 b delimString ++ s) delimString, None) else encodeString false b s) = encodeString html b s).
    { destruct (hasHint h hintHTML) eqn:Hh; [exists true; reflexivity|]. destruct (hasHint h hintRaw) eqn:Hr; [|exists false; reflexivity]. rewrite (Rh Hr) in Hh. discriminate. }
    destruct Hs as (html & ->). destruct (string_back s html Vs Ps b) as (w & En & R & P & U). exists (x22 :: w ++ [x22]), (JStr w). split; [exact En|]. split; [apply v_str; auto|]. apply backs_string; assumption.
  - destruct (go_round E W NC FS WM (S k) v O G o h addr b Sd Sv L Gk) as (w & j & En & J & Gg). exists w, j. split; [exact En|]. split; [exact J|apply backs_iface; exact Gg].
  - exists (str "null"), JNull. split; [reflexivity|]. split; [constructor|]. eapply backs_ptr_nil; eauto.
  - assert (e0 = e) by congruence. subst e0. assert (R : reads E O t e) by (eapply reads_elem; [exact K|left; reflexivity]). destruct (Down e R) as (De & He & Be).
    destruct (IH G p e h true b x) as (w & j & En & J & Bk); auto; [cbn [vdepth] in L; lia|]. exists w, j. split; [exact En|]. split; [exact J|]. eapply backs_ptr; eauto.
  - exists [x5b; x5d], (JArr []). split; [unfold append1; rewrite <- app_assoc; reflexivity|]. split; [exact (plain_array [] [] ltac:(constructor))|]. eapply backs_slice_nil; eauto.
  - assert (e0 = e) by congruence. subst e0. destruct (Ls e l true b p h) as (ws & js & En & F1 & F2); auto.
    + eapply reads_elem; [exact K|left; reflexivity].
    + intros x I. cbn [vdepth] in L. pose proof (In_max vdepth l x I). lia.
    + exists (x5b :: join x2c ws ++ [x5d]), (JArr js). split; [exact En|]. split; [apply plain_array; exact F1|]. eapply backs_slice; eauto.
  - assert (e0 = e) by congruence. subst e0. assert (Ln : length l = n) by congruence. rewrite Ln, Nat.eqb_refl. destruct (Ls e l addr b p h) as (ws & js & En & F1 & F2); auto.
    + eapply reads_elem; [exact K|left; reflexivity].
    + intros x I. cbn [vdepth] in L. pose proof (In_max vdepth l x I). lia.
    + exists (x5b :: join x2c ws ++ [x5d]), (JArr js). split; [exact En|]. split; [apply plain_array; exact F1|]. eapply backs_array; eauto.
  - destruct (serves_cases E O G o _ _ Sd Sv) as (X' & Ty' & Cs). cbn [itype] in *. rewrite Ty in Ty'. injection Ty' as <-.
    destruct Cs as [[Hd _]|[(l0 & gs & _ & -> & _ & Sc)|(_ & Ns & _)]]; [unfold handled, marshals in Hd; rewrite NA, NJ, NT in Hd; discriminate Hd| |exfalso; exact (Ns _ Kt)].
    destruct Sc as (_ & _ & _ & _ & _ & Sf' & F). rewrite Sf in Sf'. injection Sf' as ->. rewrite Forall_forall in F.
    assert (H : forall c, In c gs -> exists o, fieldByIndex (VStruct l) (cindex (fst c)) = Ok o /\ match o with Some x => (exists q, omit k E G O addr c x = Ok q) /\ forall b', exists w j, encode k E G O (snd (snd c)) addr b' x = Ok (b' ++ w, None) /\ plain j w /\ backs E O (ctype (fst c)) x j | None => True end).
    { intros c Ic. pose proof (in_map fst _ _ Ic) as Jc. destruct (codec_field E O _ _ (VStruct l) (fst c) ES Sf T Jc) as (u & Eo & Ho). exists u. split; auto. destruct u as [x|]; auto. destruct Ho as (Tx & Ix & Dx).
      assert (R : reads E O t (ctype (fst c))) by (eapply rd_field; [exact K|exact Sf|exact Jc|constructor]). destruct (Down _ R) as (De & He & Be). destruct (F c Ic) as [_ Se]. split; [apply omit_bare; auto; lia|].
      intro b'. apply (IH G _ _ (chints (fst c))); auto; [lia| |]. { destruct (TJ _ _ _ Sf Jc) as [_ Rc]. intro Hr. apply N.eqb_eq. apply Rc. apply N.eqb_eq. exact Hr. }
      apply (Fc (fst c) x Jc). apply (fieldByIndex_some _ _ _ Eo). }
    destruct (encodeFields_fine (fun q => encode k E G O q addr) (omit k E G O addr) (VStruct l) gs) with (more := false) (b := b) as (u & Eo).
    { intros c Ic. destruct (H c Ic) as (u & Eo & Ho). exists u. split; auto. destruct u as [x|]; auto. destruct Ho as (A & Ho). split; auto. intro b'. destruct (Ho b') as (w & j & En & _). eauto. }
    assert (Pt : part (encodeFields (fun q => encode k E G O q addr) (omit k E G O addr) false gs (VStruct l) b) b
      (fun w => exists ms, wrote (fun c => dropped E O addr (fst c)) (fun c x w => exists j, plain j w /\ backs E O (ctype (fst c)) x j) (VStruct l) gs ms /\ w = (x7b :: join x2c (map member ms)) ++ [x7d])).
    { apply (encodeFields_part _ _ (fun c => dropped E O addr (fst c)) (fun c x w => exists j, plain j w /\ backs E O (ctype (fst c)) x j) (VStruct l)) with (more := false); [intros c x q Ic Oq; eapply omit_spec; [exact Sd|exact (proj2 (F c Ic))|exact Oq]|].
      intros c x b' Ic R out Ex. destruct (H c Ic) as (o' & Eo' & Ho). pose proof (proj2 (fieldByIndex_reaches _ _ _ Eo' x) R) as ->. destruct Ho as (_ & Ho). destruct (Ho b') as (w & j & En & J & Bk). rewrite En in Ex. injection Ex as <-. eauto. }
    destruct (Pt u Eo) as (w & -> & ms & Wr & ->). destruct (wrote_imaged E O addr (VStruct l) gs ms) as (mjs & Im & Fm); [intros c Ic; exact (proj1 (TJ _ _ _ Sf (in_map fst _ _ Ic)))|exact Wr|].
    exists (x7b :: join x2c (map member ms) ++ [x7d]), (JObj mjs). split; [exact Eo|]. split; [apply plain_object; exact Fm|]. eapply backs_struct; eauto.
Qed.
Lemma uses_reads E O t : forall a x, uses_star E O a x -> forall u, (a = IEnc u \/ a = IDec u) -> reads E O t u -> exists y, (x = IEnc y \/ x = IDec y) /\ reads E O t y.
Proof.
  induction 1 as [a|a b c U S IH]; intros u Hu R; [eauto|]. destruct U as [t0 T e By Ie|t0 T e By Ie|it t0 T fs cs d x Hi By Kt Sf Id Hx].
  - destruct Hu as [Hu|Hu]; [discriminate|injection Hu as <-]. apply (IH e); [right; reflexivity|]. destruct By as [Ty _]. eapply reads_trans; [exact R|]. eapply reads_elem; [eapply typeOf_kindOf; exact Ty|exact Ie].
  - destruct Hu as [Hu|Hu]; [injection Hu as <-|discriminate]. apply (IH e); [left; reflexivity|]. destruct By as [Ty _]. eapply reads_trans; [exact R|]. eapply reads_elem; [eapply typeOf_kindOf; exact Ty|exact Ie].
  - assert (t0 = u) by (destruct Hi, Hu; congruence). subst t0. assert (Ty : typeOf E u = Some T) by (destruct Hi; subst it; destruct By; assumption).
    apply (IH (ctype d)); [tauto|]. eapply reads_trans; [exact R|]. eapply rd_field; [rewrite (typeOf_kindOf _ _ _ Ty), Kt; reflexivity|exact Sf|exact Id|constructor].
Qed.
Lemma round_build E O t u : wf_types E -> (forall u, ~ cyclic E O u) -> decodable E O t -> ~ hazard E O t -> reads E O t u -> exists o G, newCodec E O (IEnc u) = Ok (Some (o, G)) /\ sound E O G /\ serves E G o (IEnc u) 0.
Proof.
  intros W NC Dc Hz R. destruct (Dc u R) as (T & Ty & _). destruct (C54_lem E O (IEnc u) W NC (kindOf_lt _ _ _ (typeOf_kindOf _ _ _ Ty))) as ([[o G]|] & Nc & H).
  { exists o, G. split; [exact Nc|]. exact (newCodec_sound _ _ _ _ _ Nc). }
  exfalso. destruct (proj1 H eq_refl) as (x & U & (X & By & Lk)). destruct (uses_reads _ _ t _ _ U u (or_introl eq_refl) R) as (y & Hy & Ry). assert (Tx : typeOf E y = Some X) by (destruct Hy; subst x; destruct By; assumption).
  destruct (Dc y Ry) as (X' & Tx' & _ & Hk). rewrite Tx in Tx'. injection Tx' as <-. destruct (tkind X) as [| | | | | |[]|e|e|n e|kt e|fs|] eqn:Kx; try contradiction.
  apply Hz. exists y. split; auto. left. exists kt, e. rewrite (typeOf_kindOf _ _ _ Tx), Kx. reflexivity.
Qed.
Lemma C40_lem E rev t pt v z : wf_types E -> embeds_structs E -> ftoa_spec (ftoa E) -> walks_maps E -> tags_json E D -> target E pt t -> ~ hazard E D t -> bare E D t ->
  (forall T, typeOf E t = Some T -> (forall e, tkind T <> KPtr e) -> no_marshaler (tptr T)) -> typed E t v -> survives E D t v -> v <> VPtr None -> typed E t z -> blank E t z ->
  exists out v', Marshal E (Some (t, v)) = Ok (out, None) /\ Unmarshal E rev out pt (VPtr (Some z)) = Ok (VPtr (Some v'), None) /\ agree E D t v v'.
Proof.
  intros W ES FS WM TJ Tg Hz B Np T Sv Nv Tz Bz. pose proof Tg as (_ & Dc & NC & _). change decodeOptions with D in Dc, NC.
  assert (Mr : exists w j, Marshal E (Some (t, v)) = Ok (w, None) /\ plain j w /\ backs E D t v j).
  { unfold Marshal, AppendJSON, encodeTop. destruct (B t (rd_here _ _ _)) as ((X & Ty & NA & NJ & NT) & Si & _). rewrite Ty. pose proof (typeOf_kindOf _ _ _ Ty) as K.
    destruct (tkind X) as [| | | | | |m|e|e|n e|kt e|fs|] eqn:Kx;
      try (destruct (Np X Ty ltac:(intros e0 H; rewrite Kx in H; discriminate H)) as (PA & PJ & PT); unfold marshals; rewrite PA, PJ, PT; cbn [orb]; destruct (round_build E D t t W NC Dc Hz (rd_here _ _ _)) as (o & G & -> & Sd & Se); cbn [bind option_map]; rewrite Ty;
           destruct (encode_round E D W ES NC FS TJ WM (vdepth v) G o t 0%N false [] v Sd Se (le_n _) ltac:(discriminate) Dc Hz B T Sv) as (w & j & En & J & Bk); cbn [app] in En;
           exists w, j; split; [exact En|split; assumption]; fail).
    unfold marshals. rewrite NA, NJ, NT. cbn [orb]. assert (R : reads E D t e) by (eapply reads_elem; [exact K|left; reflexivity]). destruct (round_build E D t e W NC Dc Hz R) as (o & G & -> & Sd & Se). cbn [bind option_map].
    inv_typed T. assert (e0 = e) by congruence. subst e0. destruct (B e R) as ((Y & Te & _) & _). rewrite Te. cbn [bind].
    inversion Sv as [| | | | | |? Gk| |? e1 ? K1 N1 N2 Sx| | | |]; subst; [inversion Gk|]. assert (e1 = e) by congruence. subst e1.
    destruct (encode_round E D W ES NC FS TJ WM (vdepth (VPtr (Some x))) G o e 0%N true [] x Sd Se) as (w' & j' & En' & J' & Bk'); [cbn [vdepth]; lia|discriminate|eapply decodable_down; eassumption|intro Hh; apply Hz; eapply hazard_up; eassumption|eapply bare_down; eassumption|assumption|assumption|].
    exists w', j'. split; [exact En'|]. split; [exact J'|]. eapply backs_ptr; eauto. }
  destruct Mr as (out & j & Em & J & (Nm & St & _)). exists out. destruct (C43_lem E rev out pt t z W ES Tg Hz Tz) as (v' & err & -> & T' & H). exists v'.
  destruct (H j) as (-> & Sd); auto.
  - exists [], out, []. split; [rewrite app_nil_r; reflexivity|]. split; [constructor|]. split; [apply rfc_plain_lenient, tight_plain; exact J|]. intros _. exact I.
  - split; [exact Em|]. split; [reflexivity|]. eapply St; eassumption.
Qed.
Lemma C40_top : forall E rev t pt v z, go_env E -> two_way E pt t -> ~ hazard E D t -> typed E t v -> survives E D t v -> v <> VPtr None -> typed E t z -> blank E t z ->
  exists out v', Marshal E (Some (t, v)) = Ok (out, None) /\ Unmarshal E rev out pt (VPtr (Some z)) = Ok (VPtr (Some v'), None) /\ agree E D t v v'.
Proof. intros E rev t pt v z (W & ES & FS & WM & TJ) (Tg & B & Np) Hz T Sv Nv Tz Bz. eapply C40_lem; eassumption. Qed.
