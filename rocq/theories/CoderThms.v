(* Proofs about encoder and decoder objects. *)
From Coq Require Import Permutation.
From Verif Require Import FloatSpec FmtSpec NumSpec StrSpec Bytes Types JsonSpec Parser ParserThms Doc DocSpec DocProofs Strjson Float Num FmtThms Iface IfaceSpec Wrap WrapThms Options
  Codec CodecSpec CodecMerge CodecBase CodecBuild CodecOmit CodecEnc CodecJson DecodeSpec DecodeTree DecodeThms RoundSpec RoundThms MethodSpec MethodThms Coder CoderSpec.
Local Open Scope nat_scope.

(* ---- options: only the tag and OmitEmpty matter for the codecs that are built ---- *)
Definition same_fields (O O' : opts) : Prop := oTag O = oTag O' /\ oOmitEmpty O = oOmitEmpty O'.
Lemma mergeFields_ext rec rec' E O O' : same_fields O O' -> (forall t p c, rec t p c = rec' t p c) -> forall fs index i c, mergeFields rec E O index i fs c = mergeFields rec' E O' index i fs c.
Proof.
  intros (Et & Eo) R. induction fs as [|f fs IH]; intros index i c; [reflexivity|]. cbn [mergeFields]. rewrite Et, Eo. destruct (negb (fcanset f)); [apply IH|]. destruct (parseField _ _ _ _) as [[[tag h] tagged]|]; [|reflexivity].
  destruct (bseqb tag (str "-")); [apply IH|]. destruct (if negb tagged && fanon f then _ else _) as [t p]. destruct (negb tagged && fanon f && isStruct E t).
  - rewrite R. destruct (rec' _ _ _); cbn [bind]; auto.
  - destruct (Get c tag) as [ff|]; [destruct (_ =? _)%Z|]; apply IH.
Qed.
Lemma merge_ext E O O' : same_fields O O' -> forall fuel t p c, merge fuel E O t p c = merge fuel E O' t p c.
Proof. intro Sf. induction fuel as [|k IH]; intros t p c; [reflexivity|]. cbn [merge]. destruct (typeOf E t) as [T|]; [|reflexivity]. destruct (tkind T); try reflexivity. apply mergeFields_ext; assumption. Qed.
Lemma structFields_ext E O O' t : same_fields O O' -> structFields E O t = structFields E O' t.
Proof. intro Sf. apply merge_ext. exact Sf. Qed.
Lemma makeFields_ext (g g' : makes) : (forall it h st, g it h st = g' it h st) -> forall cs st, makeFields g cs st = makeFields g' cs st.
Proof.
  intro H. induction cs as [|c cs IH]; intro st; [reflexivity|]. cbn [makeFields]. rewrite !H. destruct (g' (IDec (ctype c)) 0%N st) as [[[d st1]|]| |]; cbn [bind]; try reflexivity.
  rewrite !H. destruct (g' (IEnc (ctype c)) (chints c) st1) as [[[e st2]|]| |]; cbn [bind]; try reflexivity. rewrite IH. reflexivity.
Qed.
Lemma make_ext E O O' : same_fields O O' -> forall fuel it h st, make fuel E O it h st = make fuel E O' it h st.
Proof.
  intro Sf. induction fuel as [|k IH]; intros it h st; [reflexivity|]. cbn [make].
  assert (C : forall it h st, cached (make k E O) it h st = cached (make k E O') it h st) by (intros; unfold cached; rewrite IH; reflexivity).
  assert (C1 : forall h e, makeOne (cached (make k E O)) it h e st = makeOne (cached (make k E O')) it h e st) by (intros; unfold makeOne; rewrite C; reflexivity).
  destruct (typeOf E (itype it)) as [T|]; [|reflexivity]. destruct (handled it (tmeth T)); [reflexivity|]. destruct (tkind T); rewrite ?C1; try reflexivity.
  destruct (cachedStruct st (itype it)); [reflexivity|]. rewrite (structFields_ext E O O' _ Sf). destruct (structFields E O' (itype it)); cbn [bind]; try reflexivity. rewrite (makeFields_ext _ _ C). reflexivity.
Qed.
Lemma newCodec_ext E O O' it : same_fields O O' -> newCodec E O it = newCodec E O' it.
Proof. intro Sf. unfold newCodec. rewrite (make_ext E O O' Sf). reflexivity. Qed.

(* ---- C56 ---- *)
Lemma completed_lem O O' : completed O O' <-> O' = normalize O.
Proof.
  destruct O as [tag oe om n i], O' as [tag' oe' om' n' i']. unfold completed, normalize. cbn. split.
  - intros ([[A ->]|[-> ->]] & [[B ->]|[-> ->]] & -> & -> & ->); try (destruct tag; [congruence|]); try (destruct om; [congruence|]); reflexivity.
  - intro H. injection H as -> -> -> -> ->. split; [destruct tag; [right; auto|left; split; [discriminate|reflexivity]]|]. split; [destruct om; [right; auto|left; split; [discriminate|reflexivity]]|]. auto.
Qed.
Lemma default_lem E out t v : AppendJSON E out (Some (t, v)) =
  let! m := NewTypeEncoder E (Some t) noOptions in match m with None => Ok ([], Some UInvalidType) | Some m => Encode E m out (Some (t, v)) end.
Proof.
  unfold NewTypeEncoder, newTypeEncoder, AppendJSON, encodeTop. change (normalize noOptions) with defaultOptions. unfold Encode.
  destruct (typeOf E t) as [T|] eqn:Ty; [|reflexivity].
  assert (H : forall mt pm (y : res gv) addr, 
    (let! m := if marshals pm then Ok (Some None) else let! r := newCodec E defaultOptions (IEnc mt) in Ok (option_map Some r) in
      match m with
      | None => Ok ([], Some UInvalidType)
      | Some m => let! v1 := y in
          match typeOf E mt with
          | None => Panic
          | Some M => match m with
              | Some (o, G) => encode (vdepth v) E G defaultOptions o addr out v1
              | None =>
                  if isAppender pm then if isAppender (tmeth M) then callAppend E mt v1 out else Panic
                  else if isJSON pm then if isJSON (tmeth M) then encodeJSON E mt out v1 else Panic
                  else if isText (tmeth M) then encodeText E mt out v1 else Panic
              end
          end end) =
    (let! m := (if isAppender pm then Ok (Some (mkTE EAppend mt defaultOptions))
          else if isJSON pm then Ok (Some (mkTE EJSON mt defaultOptions))
          else if isText pm then Ok (Some (mkTE EText mt defaultOptions))
          else let! r := newCodec E defaultOptions (IEnc mt) in Ok match r with Some (o, G) => Some (mkTE (EMade o G) mt defaultOptions) | None => None end) in
      match m with
      | None => Ok ([], Some UInvalidType)
      | Some m => let! y := y in
          if negb (mt =? teTyp m) then Ok (out, Some UInvalidValue) else
          match typeOf E mt with
          | None => Panic
          | Some M =>
              match teEncoder m with
              | EAppend => if isAppender (tmeth M) then callAppend E mt y out else Panic
              | EJSON => if isJSON (tmeth M) then encodeJSON E mt out y else Panic
              | EText => if isText (tmeth M) then encodeText E mt out y else Panic
              | EMade o G => encode (vdepth v) E G (teOptions m) o addr out y
              end
          end end)).
  { intros mt pm y addr. unfold marshals. destruct (isAppender pm); [cbn [orb bind teTyp teEncoder]; rewrite Nat.eqb_refl; reflexivity|]. destruct (isJSON pm); [cbn [orb bind teTyp teEncoder]; rewrite Nat.eqb_refl; reflexivity|].
    destruct (isText pm); [cbn [orb bind teTyp teEncoder]; rewrite Nat.eqb_refl; reflexivity|]. cbn [orb]. destruct (newCodec E defaultOptions (IEnc mt)) as [[[o G]|]| |]; cbn [bind option_map teTyp teEncoder teOptions]; try reflexivity. rewrite Nat.eqb_refl. reflexivity. }
  destruct (tkind T) eqn:Kt; try (etransitivity; [exact (H t (tptr T) (Ok v) false)|]; match goal with |- bind ?a _ = bind ?a _ => destruct a as [[m|]| |] end; reflexivity).
  etransitivity; [exact (H e (tmeth T) (match v with VPtr (Some x) => Ok x | _ => Panic end) true)|]. match goal with |- bind ?a _ = bind ?a _ => destruct a as [[m|]| |] end; try reflexivity. cbn [bind].
  destruct v as [| | | | | |[x|]| | | | |]; reflexivity.
Qed.
Lemma nonptr E t k : kindOf E t = Some k -> (forall e, k <> KPtr e) -> exists k', kindOf E t = Some k' /\ forall e, k' <> KPtr e.
Proof. eauto. Qed.
Lemma stands_det E t u u' : stands_for E t u -> stands_for E t u' -> u = u'.
Proof. intros [K|(<- & k & K & N)] [K'|(<- & k' & K' & N')]; congruence. Qed.
(* what an encoder is made of *)
Definition made_of (E : env) (t : tid) (O : opts) (m : typeEncoder) (u : tid) (pm : mset) : Prop :=
  (exists T, typeOf E t = Some T /\ pm = match tkind T with KPtr _ => tmeth T | _ => tptr T end) /\ stands_for E t u /\ teTyp m = u /\ teOptions m = O /\
  match teEncoder m with
  | EAppend => isAppender pm = true
  | EJSON => isAppender pm = false /\ isJSON pm = true
  | EText => isAppender pm = false /\ isJSON pm = false /\ isText pm = true
  | EMade o G => no_marshaler pm /\ newCodec E O (IEnc u) = Ok (Some (o, G))
  end.
Lemma made_enc E t O m : newTypeEncoder E (Some t) O = Ok (Some m) -> exists u pm, made_of E t O m u pm.
Proof.
  unfold newTypeEncoder. destruct (typeOf E t) as [T|] eqn:Ty; [|discriminate]. pose proof (typeOf_kindOf _ _ _ Ty) as K.
  assert (H : forall u pm, pm = match tkind T with KPtr _ => tmeth T | _ => tptr T end -> stands_for E t u ->
    (if isAppender pm then Ok (Some (mkTE EAppend u O)) else if isJSON pm then Ok (Some (mkTE EJSON u O)) else if isText pm then Ok (Some (mkTE EText u O))
     else let! r := newCodec E O (IEnc u) in Ok match r with Some (o, G) => Some (mkTE (EMade o G) u O) | None => None end) = Ok (Some m) -> exists u pm, made_of E t O m u pm).
  { intros u pm Pm St Eq. exists u, pm. split; [exists T; auto|]. split; [exact St|].
    destruct (isAppender pm) eqn:A; [injection Eq as <-; cbn; auto|]. destruct (isJSON pm) eqn:J; [injection Eq as <-; cbn; auto|]. destruct (isText pm) eqn:X; [injection Eq as <-; cbn; auto|].
    destruct (newCodec E O (IEnc u)) as [[[o G]|]| |]; cbn [bind] in Eq; try discriminate. injection Eq as <-. cbn. repeat split; auto. }
  destruct (tkind T) eqn:Kt; try (apply H; [reflexivity|]; right; split; [reflexivity|]; eexists; split; [exact K|discriminate]).
  apply H; [reflexivity|]. left. exact K.
Qed.
Lemma C56_new_lem E t O : wf_types E -> (forall u, ~ cyclic E (normalize O) u) -> t < length (types E) ->
  exists r, NewTypeEncoder E (Some t) O = Ok r /\ (r = None <-> ~ encoded_by_method E t /\ exists u x, stands_for E t u /\ uses_star E (normalize O) (IEnc u) x /\ lacks E x).
Proof.
  intros W NC Lt. unfold NewTypeEncoder, newTypeEncoder. destruct (lt_kindOf E t Lt) as (k & K). destruct (kindOf_typeOf _ _ _ K) as (T & Ty & <-). rewrite Ty.
  assert (H : forall u pm, pm = match tkind T with KPtr _ => tmeth T | _ => tptr T end -> stands_for E t u -> u < length (types E) ->
    exists r, (if isAppender pm then Ok (Some (mkTE EAppend u (normalize O))) else if isJSON pm then Ok (Some (mkTE EJSON u (normalize O))) else if isText pm then Ok (Some (mkTE EText u (normalize O)))
     else let! r := newCodec E (normalize O) (IEnc u) in Ok match r with Some (o, G) => Some (mkTE (EMade o G) u (normalize O)) | None => None end) = Ok r /\
     (r = None <-> ~ encoded_by_method E t /\ exists u x, stands_for E t u /\ uses_star E (normalize O) (IEnc u) x /\ lacks E x)).
  { intros u pm Pm St Lu.
    assert (By : isAppender pm = true \/ isJSON pm = true \/ isText pm = true -> encoded_by_method E t).
    { intro H. exists T. split; [exact Ty|]. rewrite <- Pm. intros (A & J & X). destruct H as [H|[H|H]]; congruence. }
    destruct (isAppender pm) eqn:A; [eexists; split; [reflexivity|]; split; [discriminate|intros [Nb _]; exfalso; apply Nb; apply By; auto]|].
    destruct (isJSON pm) eqn:J; [eexists; split; [reflexivity|]; split; [discriminate|intros [Nb _]; exfalso; apply Nb; apply By; auto]|].
    destruct (isText pm) eqn:X; [eexists; split; [reflexivity|]; split; [discriminate|intros [Nb _]; exfalso; apply Nb; apply By; auto]|].
    destruct (C54_lem E (normalize O) (IEnc u) W NC Lu) as (r & -> & Iff). cbn [bind]. eexists. split; [reflexivity|].
    assert (Nb : ~ encoded_by_method E t). { intros (T' & Ty' & Nm). rewrite Ty in Ty'. injection Ty' as <-. apply Nm. rewrite <- Pm. repeat split; assumption. }
    transitivity (r = None); [destruct r as [[o G]|]; split; congruence|]. rewrite Iff. split.
    - intros (x & Hx). split; [exact Nb|]. exists u, x. tauto.
    - intros (_ & u' & x & St' & Hx). rewrite (stands_det _ _ _ _ St St'). eauto. }
  destruct (tkind T) eqn:Kt; try (apply H; [reflexivity| |exact Lt]; right; split; [reflexivity|]; eexists; split; [exact K|discriminate]).
  apply H; [reflexivity|left; exact K|]. destruct W as (W & _). eapply W; [exact K|left; reflexivity].
Qed.
Lemma opened E s v : typed E s v -> v <> VPtr None -> exists u y, unpointed E s v u y /\ typed E u y.
Proof.
  intros T N. destruct (typed_typeOf _ _ _ T) as (X & Ty). pose proof (typeOf_kindOf _ _ _ Ty) as K.
  destruct (tkind X) eqn:Kx; try (exists s, v; split; [right; split; [reflexivity|]; split; [reflexivity|]; eexists; split; [exact K|discriminate]|exact T]).
  inversion T; subst; try congruence; try (destruct H; congruence). assert (e0 = e) by congruence. subst e0. exists e, x. split; [left; split; [exact K|reflexivity]|assumption].
Qed.
Lemma Encode_open E m out s v u y : unpointed E s v u y -> Encode E m out (Some (s, v)) =
  if negb (u =? teTyp m) then Ok (out, Some UInvalidValue) else
  match typeOf E u with
  | None => Panic
  | Some M =>
      match teEncoder m with
      | EAppend => if isAppender (tmeth M) then callAppend E u y out else Panic
      | EJSON => if isJSON (tmeth M) then encodeJSON E u out y else Panic
      | EText => if isText (tmeth M) then encodeText E u out y else Panic
      | EMade o G => encode (vdepth v) E G (teOptions m) o (match kindOf E s with Some (KPtr _) => true | _ => false end) out y
      end
  end.
Proof.
  intros [(K & ->)|(-> & -> & k & K & N)]; destruct (kindOf_typeOf _ _ _ K) as (T & Ty & Kt); unfold Encode; rewrite Ty, K, Kt.
  - reflexivity.
  - destruct k; try (exfalso; eapply N; reflexivity); cbn [bind]; rewrite ?Ty; reflexivity.
Qed.
Lemma unpointed_stands E s v u y : unpointed E s v u y -> stands_for E s u.
Proof. intros [(K & _)|(-> & _ & H)]; [left; exact K|right; auto]. Qed.
Lemma C56_reject_lem E t O m out : NewTypeEncoder E (Some t) O = Ok (Some m) ->
  Encode E m out None = Ok (out, Some UInvalidValue) /\
  forall s v, typed E s v -> v <> VPtr None -> ~ accepts E t s -> Encode E m out (Some (s, v)) = Ok (out, Some UInvalidValue).
Proof.
  intro N. split; [reflexivity|]. intros s v T Nv Na. destruct (made_enc _ _ _ _ N) as (u & pm & _ & St & Et & _). destruct (opened _ _ _ T Nv) as (u' & y & Up & _). rewrite (Encode_open _ _ _ _ _ _ _ Up).
  destruct (u' =? teTyp m) eqn:Eq; [|reflexivity]. apply Nat.eqb_eq in Eq. exfalso. apply Na. exists u. split; [exact St|]. rewrite <- Et, <- Eq. eapply unpointed_stands; exact Up.
Qed.
Lemma own_same E t T u U pm : own_methods E t -> typeOf E t = Some T -> pm = match tkind T with KPtr _ => tmeth T | _ => tptr T end -> stands_for E t u -> typeOf E u = Some U -> same_marshals pm (tmeth U).
Proof.
  intros Ow Ty -> St Tu. specialize (Ow T Ty). pose proof (typeOf_kindOf _ _ _ Ty) as K. destruct St as [K'|(-> & k & K' & Nk)].
  - rewrite K in K'. injection K' as K'. rewrite K' in *. auto.
  - rewrite Ty in Tu. injection Tu as <-. rewrite K in K'. injection K' as <-. destruct (tkind T); auto. exfalso. eapply Nk. reflexivity.
Qed.
Lemma C56_method_lem E t O m out s v u y U : NewTypeEncoder E (Some t) O = Ok (Some m) -> own_methods E t -> encoded_by_method E t -> stands_for E t u -> unpointed E s v u y -> typeOf E u = Some U ->
  marshals (tmeth U) = true /\ marshalled E u (tmeth U) out y (Encode E m out (Some (s, v))).
Proof.
  intros N Ow (T & Ty & Nm) St Up Tu. destruct (made_enc _ _ _ _ N) as (u' & pm & (T' & Ty' & Pm) & St' & Et & _ & Me). rewrite Ty in Ty'. injection Ty' as <-. rewrite <- (stands_det _ _ _ _ St St') in *. clear u' St'.
  rewrite <- Pm in Nm. pose proof (own_same E t T u U pm Ow Ty Pm St Tu) as Sm. pose proof Sm as (SA & SJ & SX).
  assert (M : marshals (tmeth U) = true).
  { unfold marshals. rewrite <- SA, <- SJ, <- SX. destruct (isAppender pm) eqn:A; [reflexivity|]. destruct (isJSON pm) eqn:J; [reflexivity|]. destruct (isText pm) eqn:X; [reflexivity|]. exfalso. apply Nm. repeat split; assumption. }
  split; [exact M|]. rewrite (Encode_open _ _ _ _ _ _ _ Up), Et, Nat.eqb_refl, Tu. cbn [negb]. pose proof (top_method E u (tmeth U) pm out y Sm M) as H. destruct (teEncoder m).
  - rewrite Me in H. exact H.
  - destruct Me as (A & J). rewrite A, J in H. exact H.
  - destruct Me as (A & J & X). rewrite A, J in H. exact H.
  - exfalso. apply Nm. exact (proj1 Me).
Qed.
Lemma unpointed_inside E s v u y : unpointed E s v u y -> inside v y /\ vdepth y <= vdepth v.
Proof. intros [(_ & ->)|(_ & -> & _)]; split; repeat constructor. Qed.
Lemma C56_lem E t O m out s v : wf_types E -> embeds_structs E -> (forall u, ~ cyclic E defaultOptions u) -> walks_maps E -> ftoa_spec (ftoa E) -> tags_json E defaultOptions -> methods_return E -> methods_write_json E ->
  tags_json E (normalize O) -> oNaN O = false -> oInf O = false ->
  NewTypeEncoder E (Some t) O = Ok (Some m) -> own_methods E t -> accepts E t s -> typed E s v -> v <> VPtr None -> tops_ok E v -> floats_json v ->
  exists res err, Encode E m out (Some (s, v)) = Ok (res, err) /\ (err = None -> exists j w, res = out ++ w /\ rfc_value j w).
Proof.
  intros W ES NC WM FS TJ MR MW TO On Oi N Ow (u0 & St0 & St1) T Nv Tp Fl.
  destruct (made_enc _ _ _ _ N) as (u & pm & (X & Tt & Pm) & St & Et & Eo & Me). destruct (opened _ _ _ T Nv) as (u' & y & Up & Ty).
  assert (u' = u). { rewrite <- (stands_det _ _ _ _ St0 St). apply (stands_det E s); [eapply unpointed_stands; exact Up|exact St1]. } subst u'.
  destruct (typed_typeOf _ _ _ Ty) as (U & Tu). pose proof (own_same E t X u U pm Ow Tt Pm St Tu) as (SA & SJ & SX). destruct (unpointed_inside _ _ _ _ _ Up) as (Iy & Dy).
  rewrite (Encode_open _ _ _ _ _ _ _ Up), Et, Nat.eqb_refl, Tu. cbn [negb]. pose proof MW as (MA & MJ & MT).
  assert (Fin : forall (r : res (bytes * option uerr)), (exists x, r = Ok x) -> part r out isJson -> exists res err, r = Ok (res, err) /\ (err = None -> exists j w, res = out ++ w /\ rfc_value j w)).
  { intros r ([res err] & ->) P. exists res, err. split; [reflexivity|]. intros ->. destruct (P res eq_refl) as (w & -> & j & J). eauto. }
  destruct (teEncoder m) as [| | |o G].
  - rewrite SA in Me. rewrite Me. apply Fin; [apply MR; exact Ty|]. intros o H. destruct (MA _ _ _ _ H) as (w & j & -> & J). exists w. split; [reflexivity|exists j; exact J].
  - rewrite SJ in Me. rewrite (proj2 Me). apply Fin; [apply encodeJSON_total; assumption|]. eapply part_imp; [apply encodeJSON_part|]. intros w [H|[_ H]]; destruct (MJ _ _ _ H) as (w' & j & K & J); [injection K as ->; exists j; exact J|discriminate].
  - rewrite SX in Me. rewrite (proj2 (proj2 Me)). apply Fin; [apply encodeText_total; assumption|]. eapply part_imp; [apply encodeText_part|]. intros w (z & H & ->). apply rfc_string. exact (MT _ _ _ H).
  - destruct Me as (_ & Nc). destruct (newCodec_sound _ _ _ _ _ Nc) as (Sd & Sv). rewrite Eo in *.
    assert (AC : acyclic E defaultOptions) by (intros q Sq Dv; apply (NC q); apply (structFields_total_lem E defaultOptions q Sq); exact Dv).
    apply Fin.
    + apply (encode_total E W ES AC MR WM _ (normalize O) G o u 0%N); auto. eapply tops_inside; eassumption.
    + apply (encode_json E) with (t := u) (h := 0%N); auto; [split; assumption|eapply floats_inside; eassumption|discriminate].
Qed.
(* ---- more steps, and addressable or not ---- *)
Lemma runCustom_addr E O t a a' v : a = a' \/ omits_by_value E (oOmitMethod O) -> runCustom E (newCustomOmiter E O t) t a v = runCustom E (newCustomOmiter E O t) t a' v.
Proof.
  intros [->|Q]; [reflexivity|]. unfold newCustomOmiter. destruct (typeOf E t) as [T|] eqn:Ty; [|reflexivity]. destruct (hasOmit (tmeth T) (oOmitMethod O)) eqn:Hm; [reflexivity|].
  destruct (tkind T) eqn:Kt; try (destruct (hasOmit (tptr T) (oOmitMethod O)) eqn:Hp; [destruct (Q t T Ty Hp) as [|(e' & Ke)]; congruence|reflexivity]).
  destruct (typeOf E e) as [X|]; [destruct (hasOmit (tmeth X) (oOmitMethod O))|]; reflexivity.
Qed.
Lemma omitAll_more om om' l b : (forall x b, om x = Ok b -> om' x = Ok b) -> omitAll om l = Ok b -> omitAll om' l = Ok b.
Proof. intro H. induction l as [|x l IH]; cbn [omitAll]; [auto|]. intro Eo. destruct (om x) as [c| |] eqn:Ex; cbn [bind] in Eo; try discriminate. rewrite (H _ _ Ex). cbn [bind]. destruct c; auto. Qed.
Lemma newOmiter_more E O a a' : a = a' \/ omits_by_value E (oOmitMethod O) -> forall k t v b, newOmiter k E O t a v = Ok b -> newOmiter (S k) E O t a' v = Ok b.
Proof.
  intro Q. induction k as [|k IH]; intros t v b; [discriminate|]. intro Eo. cbn [newOmiter] in Eo. remember (S k) as k' eqn:Ek. cbn [newOmiter]. rewrite (runCustom_addr E O t a a' v Q) in Eo.
  destruct (runCustom _ _ _ _ _) as [[c|]| |]; cbn [bind] in *; auto. destruct (typeOf E t) as [T|]; [|exact Eo].
  destruct (tkind T) as [| | | | | |[]|e|e|n e|kt e|fs|]; destruct v; try exact Eo. destruct (length l =? n); [|exact Eo]. eapply omitAll_more; [|exact Eo]. intros x c. apply IH.
Qed.
Lemma omitFields_more om om' fs v b : (forall c x b, om c x = Ok b -> om' c x = Ok b) -> omitFields om fs v = Ok b -> omitFields om' fs v = Ok b.
Proof.
  intro H. induction fs as [|c fs IH]; cbn [omitFields]; [auto|]. intro Eo. destruct (fieldByIndex v (cindex (fst c))) as [[f|]| |]; cbn [bind] in *; auto.
  destruct (om c f) as [d| |] eqn:Ex; cbn [bind] in Eo; try discriminate. rewrite (H _ _ _ Ex). cbn [bind]. destruct d; auto.
Qed.
Lemma omit_more E G O a a' : a = a' \/ omits_by_value E (oOmitMethod O) -> forall k c v b, omit k E G O a c v = Ok b -> omit (S k) E G O a' c v = Ok b.
Proof.
  intro Q. induction k as [|k IH]; intros c v b; [discriminate|]. intro Eo. cbn [omit] in Eo. remember (S k) as k' eqn:Ek. cbn [omit]. destruct (negb _); [exact Eo|].
  destruct (nth_error G (snd (snd c))) as [[it|it h p|t fs]|]; try (eapply newOmiter_more; eassumption).
  rewrite (runCustom_addr E O t a a' v Q) in Eo. destruct (runCustom _ _ _ _ _) as [[d|]| |]; cbn [bind] in *; auto. eapply omitFields_more; [|exact Eo]. exact IH.
Qed.
Lemma encodeList_more (enc enc' : encodes) l : (forall b x r, enc b x = Ok r -> enc' b x = Ok r) -> forall first b r, encodeList enc first l b = Ok r -> encodeList enc' first l b = Ok r.
Proof.
  intro H. induction l as [|x l IH]; intros first b r; cbn [encodeList]; [auto|]. intro Eo. destruct (enc _ x) as [[o [e|]]| |] eqn:Ex; cbn [bind] in Eo; try discriminate; rewrite (H _ _ _ Ex); cbn [bind]; auto.
Qed.
Lemma encodeMap_more (ek enc enc' : encodes) m : (forall b x r, enc b x = Ok r -> enc' b x = Ok r) -> forall first b r, encodeMap ek enc first m b = Ok r -> encodeMap ek enc' first m b = Ok r.
Proof.
  intro H. induction m as [|[k x] m IH]; intros first b r; cbn [encodeMap]; [auto|]. intro Eo. destruct (ek _ k) as [[o [e|]]| |]; cbn [bind] in *; auto.
  destruct (enc _ x) as [[o' [e|]]| |] eqn:Ex; cbn [bind] in Eo; try discriminate; rewrite (H _ _ _ Ex); cbn [bind]; auto.
Qed.
Lemma encodeFields_more (enc enc' : nat -> encodes) om om' fs v : (forall q b x r, enc q b x = Ok r -> enc' q b x = Ok r) -> (forall c x b, om c x = Ok b -> om' c x = Ok b) ->
  forall more b r, encodeFields enc om more fs v b = Ok r -> encodeFields enc' om' more fs v b = Ok r.
Proof.
  intros H Ho. induction fs as [|c fs IH]; intros more b r; cbn [encodeFields]; [auto|]. intro Eo. destruct (fieldByIndex v (cindex (fst c))) as [[f|]| |]; cbn [bind] in *; auto.
  destruct (om c f) as [d| |] eqn:Ex; cbn [bind] in Eo; try discriminate. rewrite (Ho _ _ _ Ex). cbn [bind]. destruct d; auto.
  destruct (enc _ _ f) as [[o [e|]]| |] eqn:En; cbn [bind] in Eo; try discriminate; rewrite (H _ _ _ _ En); cbn [bind]; auto.
Qed.
Lemma encodeTop_more (enc enc' : list cobj -> nat -> bool -> encodes) E t b v r : (forall G o a b x r, enc G o a b x = Ok r -> enc' G o a b x = Ok r) -> encodeTop enc E t b v = Ok r -> encodeTop enc' E t b v = Ok r.
Proof.
  intros H. unfold encodeTop. destruct (typeOf E t) as [T|]; [|auto]. destruct (match tkind T with KPtr e => (e, tmeth T) | _ => (t, tptr T) end) as [mt pm].
  destruct (if marshals pm then _ else _) as [[[[o G]|]|]| |]; cbn [bind]; auto.
  destruct (match tkind T with KPtr _ => _ | _ => Ok v end) as [y| |]; cbn [bind]; auto. destruct (typeOf E mt); auto.
Qed.
Lemma encode_more E : forall k G O o a a' b v r, a = a' \/ omits_by_value E (oOmitMethod O) -> encode k E G O o a b v = Ok r -> encode (S k) E G O o a' b v = Ok r.
Proof.
  induction k as [|k IH]; intros G O o a a' b v r Q; [discriminate|]. intro Eo. cbn [encode] in Eo. remember (S k) as k' eqn:Ek. cbn [encode].
  destruct (nth_error G o) as [[[t|t]|[t|t] h p|t fs]|]; try exact Eo.
  - destruct (typeOf E t) as [T|]; [|exact Eo]. destruct (tkind T) as [| | | | | |[]|e|e|n e|kt e|fs|]; try exact Eo.
    + destruct v as [| | | | |[[dt x]|]| | | | | |]; try exact Eo. eapply encodeTop_more; [|exact Eo]. intros G' o' a1 b' x' r'. apply IH. left. reflexivity.
    + destruct (isNil v) as [[]| |]; cbn [bind] in *; try exact Eo. destruct v as [| | | | | |[x|]| | | | |]; try exact Eo. eapply IH; [|exact Eo]. left. reflexivity.
    + destruct v as [| | | | | | |[[l s]|]| | | |]; try exact Eo. eapply encodeList_more; [|exact Eo]. intros b' x' r'. apply IH. left. reflexivity.
    + destruct v; try exact Eo. destruct (length l =? n); [|exact Eo]. eapply encodeList_more; [|exact Eo]. intros b' x' r'. apply IH. exact Q.
    + destruct v as [| | | | | | | | |[m|]| |]; try exact Eo. eapply encodeMap_more; [|exact Eo]. intros b' x' r'. apply IH. left. reflexivity.
  - eapply encodeFields_more; [| |exact Eo]; [intros q b' x' r'; apply IH; exact Q|]. intros c x d. subst k'. apply omit_more. exact Q.
Qed.
Lemma C56_pointer_lem E t O m out s ps y r : omits_by_value E (oOmitMethod (normalize O)) -> NewTypeEncoder E (Some t) O = Ok (Some m) -> kindOf E ps = Some (KPtr s) -> (forall e, kindOf E s <> Some (KPtr e)) ->
  Encode E m out (Some (s, y)) = Ok r -> Encode E m out (Some (ps, VPtr (Some y))) = Ok r.
Proof.
  intros Q N Kp Ks Eo. destruct (made_enc _ _ _ _ N) as (u & pm & _ & _ & _ & Ep & _).
  rewrite (Encode_open E m out ps (VPtr (Some y)) s y (or_introl (conj Kp eq_refl))). unfold Encode in Eo. destruct (typeOf E s) as [T|] eqn:Ty; [|discriminate]. pose proof (typeOf_kindOf _ _ _ Ty) as K.
  assert (Eo' : (if negb (s =? teTyp m) then Ok (out, Some UInvalidValue) else
     match teEncoder m with
      | EAppend => if isAppender (tmeth T) then callAppend E s y out else Panic
      | EJSON => if isJSON (tmeth T) then encodeJSON E s out y else Panic
      | EText => if isText (tmeth T) then encodeText E s out y else Panic
      | EMade o G => encode (vdepth y) E G (teOptions m) o false out y
      end) = Ok r).
  { destruct (tkind T) eqn:Kt; try (cbn [bind] in Eo; rewrite ?Ty in Eo; exact Eo). exfalso. eapply Ks. exact K. }
  destruct (negb (s =? teTyp m)); [exact Eo'|]. destruct (teEncoder m); try exact Eo'. cbn [vdepth]. rewrite Kp. rewrite Ep in *. eapply encode_more; [|exact Eo']. right. exact Q.
Qed.

(* ---- C57 ---- *)
Lemma tag_codec E tag O it : completed (tagOnly tag) O -> newCodec E (tagOptions tag) it = newCodec E O it.
Proof. intro C. apply completed_lem in C. subst O. apply newCodec_ext. destruct tag; split; reflexivity. Qed.
Lemma C57_new_lem E t tag O : wf_types E -> completed (tagOnly tag) O -> (forall u, ~ cyclic E O u) -> t < length (types E) ->
  exists r, NewTypeDecoder E (Some t) tag = Ok r /\ (r = None <-> kindOf E t <> Some (KIface false) /\
    forall T e, typeOf E t = Some T -> tkind T = KPtr e -> no_unmarshaler (tmeth T) /\ exists x, uses_star E O (IDec e) x /\ lacks E x).
Proof.
  intros W C NC Lt. unfold NewTypeDecoder. destruct (lt_kindOf E t Lt) as (k & K). destruct (kindOf_typeOf _ _ _ K) as (T & Ty & <-). rewrite Ty, K.
  assert (Np : (forall e, tkind T <> KPtr e) -> tkind T <> KIface false -> exists r : option decoder, Ok None = Ok r /\ (r = None <-> Some (tkind T) <> Some (KIface false) /\ forall T0 e, Some T = Some T0 -> tkind T0 = KPtr e -> no_unmarshaler (tmeth T0) /\ exists x, uses_star E O (IDec e) x /\ lacks E x)).
  { intros N1 N2. exists None. split; [reflexivity|]. split; [|reflexivity]. intros _. split; [congruence|]. intros T0 e H. injection H as <-. intro H. exfalso. exact (N1 _ H). }
  destruct (tkind T) as [| | | | | |[]|e|e|n e|kt e|fs|] eqn:Kt; try (apply Np; congruence).
  - exists (Some DIface). split; [reflexivity|]. split; [discriminate|]. intros [H _]. congruence.
  - assert (By : isNodeU (tmeth T) = true \/ isJSONU (tmeth T) = true \/ isTextU (tmeth T) = true -> forall d : decoder, Some d = None <-> Some (KPtr e) <> Some (KIface false) /\ forall T0 e, Some T = Some T0 -> tkind T0 = KPtr e -> no_unmarshaler (tmeth T0) /\ exists x, uses_star E O (IDec e) x /\ lacks E x).
    { intros H d. split; [discriminate|]. intros [_ H0]. destruct (H0 T e eq_refl Kt) as ((A & B & D) & _). destruct H as [H|[H|H]]; congruence. }
    destruct (isNodeU (tmeth T)) eqn:A; [eexists; split; [reflexivity|]; apply By; auto|]. destruct (isJSONU (tmeth T)) eqn:B; [eexists; split; [reflexivity|]; apply By; auto|].
    destruct (isTextU (tmeth T)) eqn:D; [eexists; split; [reflexivity|]; apply By; auto|]. rewrite (tag_codec E tag O _ C).
    assert (Le : e < length (types E)) by (destruct W as (W & _); eapply W; [exact K|left; reflexivity]).
    destruct (C54_lem E O (IDec e) W NC Le) as (r & -> & Iff). cbn [bind]. eexists. split; [reflexivity|]. transitivity (r = None); [destruct r as [[o G]|]; split; congruence|]. rewrite Iff. split.
    + intros H. split; [discriminate|]. intros T0 e0 H0. injection H0 as <-. rewrite Kt. intro H0. injection H0 as <-. split; [repeat split; assumption|exact H].
    + intros [_ H]. destruct (H T e eq_refl Kt) as [_ H']. exact H'.
Qed.
(* what a decoder of a pointer type decoded by kind is *)
Lemma made_dec E t tag T e O : completed (tagOnly tag) O -> typeOf E t = Some T -> tkind T = KPtr e -> no_unmarshaler (tmeth T) -> forall d, NewTypeDecoder E (Some t) tag = Ok (Some d) ->
  exists o G, d = DType o G t /\ newCodec E O (IDec e) = Ok (Some (o, G)).
Proof.
  intros C Ty K (A & B & D) d. unfold NewTypeDecoder. rewrite Ty, K, A, B, D, (tag_codec E tag O _ C). destruct (newCodec E O (IDec e)) as [[[o G]|]| |]; cbn [bind]; try discriminate. intro H. injection H as <-. eauto.
Qed.
Lemma C57_reject_lem E pi w n t tag T e d : typeOf E t = Some T -> tkind T = KPtr e -> no_unmarshaler (tmeth T) -> NewTypeDecoder E (Some t) tag = Ok (Some d) ->
  Decode E pi w d None n = Ok (None, Some UInvalidValue) /\
  forall s v, s < length (types E) -> s <> t -> Decode E pi w d (Some (s, v)) n = Ok (Some (s, v), Some UInvalidValue).
Proof.
  intros Ty K U N. destruct (made_dec E t tag T e (normalize (tagOnly tag)) ltac:(apply completed_lem; reflexivity) Ty K U d N) as (o & G & -> & _). split; [reflexivity|]. intros s v Ls Ns.
  destruct (lt_kindOf _ _ Ls) as (k & Ks). destruct (kindOf_typeOf _ _ _ Ks) as (S0 & Ts & _). unfold Decode. rewrite Ts. apply Nat.eqb_neq in Ns. rewrite Ns. reflexivity.
Qed.
Lemma C57_lem E pi w n t e v j tag O d : wf_types E -> embeds_structs E -> completed (tagOnly tag) O -> target_with E O t e -> ~ hazard E O e -> typed E e v -> tree_of w n j ->
  NewTypeDecoder E (Some t) tag = Ok (Some d) ->
  exists v' err, Decode E pi w d (Some (t, VPtr (Some v))) n = Ok (Some (t, VPtr (Some v')), err) /\ typed E e v' /\ (~ mismatch E O e j -> err = None /\ stored E O e v j v').
Proof.
  intros W ES C Tg Hz T Tr N. pose proof Tg as ((X & Ty & K & U) & _). destruct (made_dec E t tag X e O C Ty K U d N) as (o & G & -> & Nc).
  pose proof (made_good E O w n t e v j o G W ES Tg Nc T Tr) as Gd. unfold Decode. rewrite Ty, Nat.eqb_refl. cbn [negb].
  destruct (decode (decodeFuel E w n) E G w o v n) as [[v' err]| |]; cbn [good bind fst snd] in *; [|contradiction|contradiction]. exists v', err. destruct Gd as [T' Gd]. split; [reflexivity|]. split; [exact T'|].
  intro Nm. destruct Gd as [?|[? _]]; [assumption|contradiction].
Qed.
Lemma C57_errors_lem E pi w n t e v j tag O d x' err : wf_types E -> embeds_structs E -> completed (tagOnly tag) O -> target_with E O t e -> typed E e v -> tree_of w n j ->
  NewTypeDecoder E (Some t) tag = Ok (Some d) -> Decode E pi w d (Some (t, VPtr (Some v))) n = Ok (x', err) ->
  (err <> None -> mismatch E O e j) /\ (strict E O e -> mismatch E O e j -> err <> None).
Proof.
  intros W ES C Tg T Tr N Dc. pose proof Tg as ((X & Ty & K & U) & _). destruct (made_dec E t tag X e O C Ty K U d N) as (o & G & -> & Nc).
  pose proof (made_good E O w n t e v j o G W ES Tg Nc T Tr) as Gd. unfold Decode in Dc. rewrite Ty, Nat.eqb_refl in Dc. cbn [negb] in Dc.
  destruct (decode (decodeFuel E w n) E G w o v n) as [[v' er]| |]; cbn [good bind fst snd] in *; try discriminate. injection Dc as _ <-.
  destruct Gd as [_ [[-> Sd]|[Mm St]]]; split; intros; auto; [congruence|]. exfalso. eapply stored_no_mismatch; eauto.
Qed.
Lemma C57_build_lem E t e tag O : wf_types E -> completed (tagOnly tag) O -> target_with E O t e -> exists d, NewTypeDecoder E (Some t) tag = Ok (Some d).
Proof.
  intros W C Tg. destruct (build_target E O t e W Tg) as (o & G & Nc). destruct Tg as ((T & Ty & K & A & B & D) & _). unfold NewTypeDecoder. rewrite Ty, K, A, B, D, (tag_codec E tag O _ C), Nc. cbn [bind]. eauto.
Qed.
Lemma C57_default_lem E pi w n t x : (forall m, kindOf E t <> Some (KIface m)) -> UnmarshalFromNode E w n t x =
  let! d := NewTypeDecoder E (Some t) [] in
  match d with
  | None => Ok (x, Some UInvalidType)
  | Some d => let! r := Decode E pi w d (Some (t, x)) n in Ok (match fst r with Some (_, y) => y | None => x end, snd r)
  end.
Proof.
  intros Ni. unfold UnmarshalFromNode, NewTypeDecoder. destruct (typeOf E t) as [T|] eqn:Ty; [|reflexivity]. pose proof (typeOf_kindOf _ _ _ Ty) as K. rewrite K in Ni.
  destruct (tkind T) as [| | | | | |[]|e|e|m e|kt e|fs|]; try reflexivity; [exfalso; eapply Ni; reflexivity|].
  rewrite (tag_codec E [] decodeOptions) by (apply completed_lem; reflexivity).
  assert (P : forall r : res (gv * option uerr), r = (let! r0 := (let! y := r in Ok (Some (t, fst y), snd y)) in Ok (match fst r0 with Some (_, y) => y | None => x end, snd r0))) by (intros [[y er]| |]; reflexivity).
  destruct (isNodeU (tmeth T)) eqn:A; [cbn [bind]; unfold Decode; rewrite Ty, A; apply P|]. destruct (isJSONU (tmeth T)) eqn:B; [cbn [bind]; unfold Decode; rewrite Ty, B; apply P|]. destruct (isTextU (tmeth T)) eqn:D; [cbn [bind]; unfold Decode; rewrite Ty, D; apply P|].
  destruct (newCodec E decodeOptions (IDec e)) as [[[o G]|]| |]; try reflexivity. cbn [bind]. unfold Decode. rewrite Ty, Nat.eqb_refl. cbn [negb].
  destruct x as [| | | | | |[y|]| | | | |]; try reflexivity; [apply P|]. destruct (Node_Type w n =? TypeNull)%N; reflexivity.
Qed.
Lemma failed_tree w n j : tree_of w n j -> failedInterface w n = left_over j.
Proof.
  intro T. destruct (tree_get w n _ T) as (r & d & x & _ & _ & G & G' & D). unfold failedInterface, Node_Type. rewrite G.
  inversion D; subst; rewrite G' in H; injection H as <-; rewrite H0; reflexivity.
Qed.
Lemma tree_null w n j : tree_of w n j -> (Node_Type w n =? TypeNull)%N = match j with JNull => true | _ => false end.
Proof.
  intro T. destruct (tree_get w n _ T) as (r & d & x & _ & _ & G & G' & D). unfold Node_Type. rewrite G.
  inversion D; subst; rewrite G' in H; injection H as <-; rewrite H0; reflexivity.
Qed.
Lemma C57_nil_lem E pi w n j : tree_of w n j ->
  (forall t tag T e d, typeOf E t = Some T -> tkind T = KPtr e -> no_unmarshaler (tmeth T) -> NewTypeDecoder E (Some t) tag = Ok (Some d) ->
    (j = JNull -> Decode E pi w d (Some (t, VPtr None)) n = Ok (Some (t, VPtr None), None)) /\ (j <> JNull -> Decode E pi w d (Some (t, VPtr None)) n = Panic)) /\
  (kindOf E pi = Some (KPtr tIface) -> exists d, NewTypeDecoder E None [] = Ok (Some d) /\ Decode E pi w d (Some (pi, VPtr None)) n = Panic).
Proof.
  intro Tr. split.
  - intros t tag T e d Ty K U N. destruct (made_dec E t tag T e (normalize (tagOnly tag)) ltac:(apply completed_lem; reflexivity) Ty K U d N) as (o & G & -> & _).
    unfold Decode. rewrite Ty, Nat.eqb_refl, (tree_null w n j Tr). cbn [negb]. split; [intros ->; reflexivity|]. intro Nj. destruct j; congruence || reflexivity.
  - intro Kp. exists DIface. split; [reflexivity|]. destruct (kindOf_typeOf _ _ _ Kp) as (P & Tp & _). unfold Decode. rewrite Tp, Nat.eqb_refl, (toGo_node w n j Tr). destruct (toGo j); reflexivity.
Qed.
Lemma C57_iface_lem E pi w n t x j tag : kindOf E pi = Some (KPtr tIface) -> t = None \/ (exists i, t = Some i /\ kindOf E i = Some (KIface false)) -> tree_of w n j ->
  exists d, NewTypeDecoder E t tag = Ok (Some d) /\
    (numbers_parse j -> exists g, go_of j g /\ Decode E pi w d (Some (pi, VPtr (Some x))) n = Ok (Some (pi, VPtr (Some (VIface (ofGo g)))), None)) /\
    (~ numbers_parse j -> exists e, Decode E pi w d (Some (pi, VPtr (Some x))) n = Ok (Some (pi, VPtr (Some (VIface (left_over j)))), Some e)) /\
    (exists e, Decode E pi w d None n = Ok (None, Some e)) /\
    forall s v, s < length (types E) -> s <> pi -> exists e, Decode E pi w d (Some (s, v)) n = Ok (Some (s, v), Some e).
Proof.
  intros Kp Ht Tr. assert (N : NewTypeDecoder E t tag = Ok (Some DIface)).
  { destruct Ht as [->|(i & -> & K)]; [reflexivity|]. unfold NewTypeDecoder. destruct (kindOf_typeOf _ _ _ K) as (T & -> & ->). reflexivity. }
  exists DIface. split; [exact N|]. destruct (kindOf_typeOf _ _ _ Kp) as (P & Tp & _). pose proof (toGo_node w n j Tr) as Gn. pose proof (toGo_spec j) as Gs.
  unfold Decode. rewrite Tp, Nat.eqb_refl, Gn. cbn [bind]. destruct (toGo j) as [g|].
  - destruct Gs as [Np Go]. repeat split; [intros _; eauto|intro; contradiction|unfold typeError; eauto|]. intros s v Ls Ns.
    destruct (lt_kindOf _ _ Ls) as (k & Ks). destruct (kindOf_typeOf _ _ _ Ks) as (S0 & Ts & _). rewrite Ts. apply Nat.eqb_neq in Ns. rewrite Ns. unfold typeError. eauto.
  - repeat split; [intro; contradiction|intros _; rewrite (failed_tree _ _ _ Tr); unfold typeError; eauto|unfold typeError; eauto|]. intros s v Ls Ns.
    destruct (lt_kindOf _ _ Ls) as (k & Ks). destruct (kindOf_typeOf _ _ _ Ks) as (S0 & Ts & _). rewrite Ts. apply Nat.eqb_neq in Ns. rewrite Ns. unfold typeError. eauto.
Qed.
Lemma C57_method_lem E pi w n t T e x j tag : typeOf E t = Some T -> tkind T = KPtr e -> unmarshals (tmeth T) = true -> tree_of w n j ->
  exists d r, NewTypeDecoder E (Some t) tag = Ok (Some d) /\ unmarshalled E t (tmeth T) w n j x r /\ Decode E pi w d (Some (t, x)) n = (let! y := r in Ok (Some (t, fst y), snd y)) /\ Decode E pi w d None n = Ok (None, Some UInvalidValue).
Proof.
  intros Ty K M Tr. unfold NewTypeDecoder. rewrite Ty, K. unfold unmarshals in M.
  destruct (isNodeU (tmeth T)) eqn:A. { exists DNode, (callNodeU E t x w n). split; [reflexivity|]. unfold unmarshalled, Decode. rewrite Ty, A. repeat split; intros; discriminate. }
  destruct (isJSONU (tmeth T)) eqn:B. { exists DJSON, (callJSONU E t x (print j)). split; [reflexivity|]. unfold unmarshalled, Decode. rewrite Ty, A, B, (wrap_json w n j Tr). repeat split; intros; discriminate. }
  cbn [orb] in M. rewrite M. exists DText. unfold unmarshalled, Decode. rewrite Ty, A, B, M. eexists. split; [reflexivity|]. split; [|split; reflexivity]. repeat split; try discriminate.
  - intros s ->. rewrite (wrap_text w n s Tr). reflexivity.
  - intros Ns. destruct (wrap_text_other w n j Tr Ns) as (ty & -> & _). cbn [wrapped]. eauto.
Qed.

(* ---- C58: with the same tag, decoding does not depend on the other options ---- *)
Definition alike (c d : codec) : Prop := ckey c = ckey d /\ cindex c = cindex d /\ ctype c = ctype d.
Definition alikes (r r' : res (list codec)) : Prop := match r, r' with Ok a, Ok b => Forall2 alike a b | Panic, Panic | Diverge, Diverge => True | _, _ => False end.
Lemma Get_alike a b k : Forall2 alike a b -> match Get a k, Get b k with Some c, Some d => alike c d | None, None => True | _, _ => False end.
Proof. induction 1 as [|c d a b (K & Ix & Ty) F IH]; cbn [Get]; [exact I|]. rewrite K. destruct (bseqb (ckey d) k); [repeat split; assumption|exact IH]. Qed.
Lemma parseField_alike oe oe' n tag fd : match parseField oe n tag fd, parseField oe' n tag fd with Some (k, _, g), Some (k', _, g') => k = k' /\ g = g' | None, None => True | _, _ => False end.
Proof. unfold parseField. destruct (parseTag tag fd) as [[[k h] g]|]; auto. Qed.
Lemma mergeFields_alike rec rec' E O O' : oTag O = oTag O' -> (forall t p c c', Forall2 alike c c' -> alikes (rec t p c) (rec' t p c')) ->
  forall fs index i c c', Forall2 alike c c' -> alikes (mergeFields rec E O index i fs c) (mergeFields rec' E O' index i fs c').
Proof.
  intros Et R. induction fs as [|f fs IH]; intros index i c c' F; [exact F|]. cbn [mergeFields]. rewrite Et. destruct (negb (fcanset f)); [apply IH; exact F|].
  pose proof (parseField_alike (oOmitEmpty O) (oOmitEmpty O') (fname f) (ftag f) (flookup f (oTag O'))) as Pf.
  destruct (parseField (oOmitEmpty O) _ _ _) as [[[k h] g]|], (parseField (oOmitEmpty O') _ _ _) as [[[k' h'] g']|]; try contradiction; [|exact I]. destruct Pf as [<- <-].
  destruct (bseqb k (str "-")); [apply IH; exact F|]. destruct (if negb g && fanon f then _ else _) as [t p]. destruct (negb g && fanon f && isStruct E t).
  - specialize (R t (if p then (index ++ [Z.of_nat i]) ++ [-1]%Z else index ++ [Z.of_nat i]) c c' F). destruct (rec _ _ _), (rec' _ _ _); cbn [bind alikes] in *; try contradiction; auto.
  - assert (Add : alikes (mergeFields rec E O index (S i) fs (c ++ [mkC k (if p then (index ++ [Z.of_nat i]) ++ [-1]%Z else index ++ [Z.of_nat i]) (ftype f) h]))
        (mergeFields rec' E O' index (S i) fs (c' ++ [mkC k (if p then (index ++ [Z.of_nat i]) ++ [-1]%Z else index ++ [Z.of_nat i]) (ftype f) h']))).
    { apply IH. apply Forall2_app; [exact F|]. constructor; [repeat split|constructor]. }
    pose proof (Get_alike c c' k F) as Ga. destruct (Get c k) as [d|], (Get c' k) as [d'|]; try contradiction; [|exact Add]. destruct Ga as (_ & -> & _). destruct (_ =? _)%Z; [exact Add|apply IH; exact F].
Qed.
Lemma merge_alike E O O' : oTag O = oTag O' -> forall fuel t p c c', Forall2 alike c c' -> alikes (merge fuel E O t p c) (merge fuel E O' t p c').
Proof.
  intro Et. induction fuel as [|k IH]; intros t p c c' F; [exact I|]. cbn [merge]. destruct (typeOf E t) as [T|]; [|exact I]. destruct (tkind T); try exact I. apply mergeFields_alike; assumption.
Qed.
Lemma structFields_alike E O O' t : oTag O = oTag O' -> alikes (structFields E O t) (structFields E O' t).
Proof. intro Et. apply merge_alike; [exact Et|constructor]. Qed.
Lemma alike_In a b c : Forall2 alike a b -> In c a -> exists d, In d b /\ alike c d.
Proof. intros F Ic. eapply Forall2_In_l; eassumption. Qed.
Lemma reads_alike E O O' : oTag O = oTag O' -> forall t u, reads E O t u -> reads E O' t u.
Proof.
  intros Et t u R. induction R as [t|t k e u K Ie R IH|t fs cs c u K Sf Ic R IH]; [constructor|eapply rd_elem; eassumption|].
  pose proof (structFields_alike E O O' t Et) as A. rewrite Sf in A. destruct (structFields E O' t) as [cs'| |] eqn:Sf'; try contradiction. cbn in A. destruct (alike_In _ _ _ A Ic) as (d & Id & (_ & _ & Ty)). rewrite Ty in IH. eapply rd_field; eassumption.
Qed.
Lemma atIndex_ext E f g : (forall x, f x = g x) -> forall p t v, atIndex E p t v f = atIndex E p t v g.
Proof.
  intro H. induction p as [|i p IH]; intros t v; cbn [atIndex]; [apply H|]. destruct (i =? -1)%Z.
  - destruct (elemType E t), v as [| | | | | |[y|]| | | | |]; auto; rewrite IH; reflexivity.
  - destruct v; auto. destruct (fieldType E t (Z.to_nat i)); auto. destruct (fieldAt l i); auto. rewrite IH. reflexivity.
Qed.
Lemma unMembers_alike (dec dec' : codec -> udecodes) E t cs cs' : Forall2 alike cs cs' -> (forall c c' v j, alike c c' -> dec c v j = dec' c' v j) -> forall ms v, unMembers dec E t cs ms v = unMembers dec' E t cs' ms v.
Proof.
  intros F D. induction ms as [|[k j] ms IH]; intro v; [reflexivity|]. cbn [unMembers]. pose proof (Get_alike cs cs' k F) as Ga. destruct (Get cs k) as [c|], (Get cs' k) as [c'|]; try contradiction; [|apply IH].
  pose proof Ga as (_ & -> & _). destruct (cindex c') as [|i p]; [apply IH|]. rewrite (atIndex_ext E _ (fun f => dec' c' f j)) by (intro x; apply D; exact Ga). destruct (atIndex _ _ _ _ _) as [[y [e|]]| |]; cbn [bind]; auto.
Qed.
Lemma unElems_ext (dec dec' : udecodes) : (forall v j, dec v j = dec' v j) -> forall js done rest spare, unElems dec js done rest spare = unElems dec' js done rest spare.
Proof. intro H. induction js as [|j js IH]; intros done rest spare; cbn [unElems]; [reflexivity|]. destruct rest; auto. rewrite H. destruct (dec' g j) as [[y [e|]]| |]; cbn [bind]; auto. Qed.
Lemma unArray_ext (dec dec' : udecodes) z : (forall v j, dec v j = dec' v j) -> forall l js, unArray dec z js l = unArray dec' z js l.
Proof. intro H. induction l as [|e l IH]; intros js; [destruct js; reflexivity|]. destruct js as [|j js]; [reflexivity|]. cbn [unArray]. rewrite H. destruct (dec' e j); cbn [bind]; auto. rewrite IH. reflexivity. Qed.
Lemma unMap_ext (dec dec' : udecodes) z kt : (forall v j, dec v j = dec' v j) -> forall ms v, unMap dec z kt ms v = unMap dec' z kt ms v.
Proof.
  intro H. induction ms as [|[k j] ms IH]; intro v; cbn [unMap]; [reflexivity|]. rewrite H. destruct (dec' z j) as [[y [e|]]| |]; cbn [bind]; auto. destruct (negb (kt =? tString)); auto. destruct v as [| | | | | | | | |[m|]| |]; auto.
Qed.
Lemma un_alike E U O O' : oTag O = oTag O' -> forall fuel t v j, un fuel E U O t v j = un fuel E U O' t v j.
Proof.
  intro Et. induction fuel as [|k IH]; intros t v j; [reflexivity|]. cbn [un]. destruct (typeOf E t) as [T|]; [|reflexivity]. destruct (isNodeU _); [reflexivity|]. destruct (isJSONU _); [reflexivity|]. destruct (isTextU _); [reflexivity|].
  destruct (tkind T) as [| | | | | |[]|e|e|n e|kt e|fs|]; destruct v; try reflexivity.
  - destruct j; rewrite ?IH; reflexivity.
  - destruct j; try reflexivity. destruct (match x with None => _ | Some _ => _ end) as [l s]. rewrite (unElems_ext _ _ (fun v j => IH e v j)). reflexivity.
  - destruct (negb (length l =? n)); [reflexivity|]. destruct j; try reflexivity. rewrite (unArray_ext _ _ _ (fun v j => IH e v j)). reflexivity.
  - destruct j; try reflexivity. apply unMap_ext. intros; apply IH.
  - destruct j; try reflexivity. pose proof (structFields_alike E O O' t Et) as A. destruct (structFields E O t), (structFields E O' t); cbn [alikes bind] in *; try contradiction; try reflexivity.
    apply unMembers_alike; [exact A|]. intros c c' v j (_ & _ & ->). apply IH.
Qed.
Lemma made_good_tag E O Od w n e v j o G : wf_types E -> embeds_structs E -> oTag Od = oTag O -> decodable E O e -> no_pointer_loop E -> newCodec E Od (IDec e) = Ok (Some (o, G)) -> typed E e v -> tree_of w n j ->
  good E O e v j (decode (decodeFuel E w n) E G w o v n).
Proof.
  intros W ES Et D (rank & R1 & R2) Bd T Tr. destruct (newCodec_sound _ _ _ _ _ Bd) as [Sd Sv].
  rewrite (un_bridge E (fun _ _ _ => Panic) Od w G Sd _ o e v n j Sv).
  - rewrite (un_alike E _ Od O Et). apply (un_good E _ O rank); auto. destruct Tr as (r & d & En & Ed & Er & Dn). unfold decodeFuel, Node_Document. rewrite En. cbn [getDoc]. rewrite Ed, (proj2 (N.eqb_eq _ _) Er). cbn [getDoc]. rewrite Ed.
    apply denotes_depth in Dn. unfold depthFuel. specialize (R1 e). cbn [Nat.mul]. nia.
  - intros u X l R Tu _ _. destruct (D u (reads_alike E Od O Et _ _ R)) as (X' & Tu' & (A & B & C) & _). rewrite Tu in Tu'. injection Tu' as <-. unfold unmarshals. rewrite A, B, C. reflexivity.
  - intros u X' v' n' j' R Tu Nu. destruct (D u (reads_alike E Od O Et _ _ R)) as (X'' & Tu' & (Nu' & _) & _). congruence.
  - exact Tr.
Qed.
Lemma C58_write E O O' m t v out : wf_types E -> embeds_structs E -> (forall u, ~ cyclic E defaultOptions u) -> ftoa_spec (ftoa E) -> walks_maps E -> completed O O' -> tags_json E O' ->
  decodable E O' t -> ~ hazard E O' t -> bare E O' t -> (forall T, typeOf E t = Some T -> (forall e, tkind T <> KPtr e) -> no_marshaler (tptr T)) ->
  NewTypeEncoder E (Some t) O = Ok (Some m) -> typed E t v -> survives E O' t v -> v <> VPtr None ->
  exists w j, Encode E m out (Some (t, v)) = Ok (out ++ w, None) /\ plain j w /\ backs E O' t v j.
Proof.
  intros W ES NC FS WM C TJ Dc Hz B Np Ne T Sv Nv.
apply completed_lem in C. subst O'. destruct (made_enc _ _ _ _ Ne) as (u & pm & (X & Ty & Pm) & St & Et & Eo & Me). destruct (B t (rd_here _ _ _)) as ((X' & Ty' & Nm) & _ & _). rewrite Ty in Ty'. injection Ty' as <-. pose proof (typeOf_kindOf _ _ _ Ty) as K.
    assert (Npm : no_marshaler pm). { rewrite Pm. destruct (tkind X) eqn:Kx; try (apply (Np X Ty); rewrite Kx; discriminate). exact Nm. }
    destruct (opened _ _ _ T Nv) as (u' & y & Uo & Ty'). assert (u' = u) by (eapply stands_det; [eapply unpointed_stands; exact Uo|exact St]). subst u'.
    rewrite (Encode_open _ _ _ _ _ _ _ Uo), Et, Nat.eqb_refl. destruct (typed_typeOf _ _ _ Ty') as (U & Tu). rewrite Tu. cbn [negb].
    destruct Npm as (A & J & Xt). destruct (teEncoder m) as [| | |o G]; [congruence|destruct Me; congruence|destruct Me as (_ & _ & Me); congruence|]. destruct Me as (_ & Nc). destruct (newCodec_sound _ _ _ _ _ Nc) as (Sd & Se). rewrite Eo.
    destruct Uo as [(Kt & ->)|(-> & -> & k & Kt & Nk)].
    - assert (R : reads E (normalize O) t u) by (eapply reads_elem; [exact Kt|left; reflexivity]).
      inversion Sv as [| | | | | |? Gk| |? e1 ? K1 N1 N2 Sx| | | |]; subst; [inversion Gk|]. assert (e1 = teTyp m) by congruence. subst e1.
      destruct (encode_round E (normalize O) W ES NC FS TJ WM (vdepth (VPtr (Some y))) G o _ 0%N (match kindOf E t with Some (KPtr _) => true | _ => false end) out y Sd Se) as (w' & j' & En' & J' & Bk');
        [cbn [vdepth]; lia|discriminate|eapply decodable_down; eassumption|intro Hh; apply Hz; eapply hazard_up; eassumption|eapply bare_down; eassumption|assumption|assumption|].
      exists w', j'. split; [exact En'|]. split; [exact J'|]. eapply backs_ptr; eauto.
    - destruct (encode_round E (normalize O) W ES NC FS TJ WM (vdepth y) G o u 0%N (match kindOf E u with Some (KPtr _) => true | _ => false end) out y Sd Se (le_n _) ltac:(discriminate) Dc Hz B T Sv) as (w & j & En & Jp & Bk). eauto.
Qed.
Lemma C58_read E O O' pi W n d t pt v z j : wf_types E -> embeds_structs E -> completed O O' -> (exists P, typeOf E pt = Some P /\ tkind P = KPtr t /\ no_unmarshaler (tmeth P)) -> decodable E O' t -> no_pointer_loop E -> ~ hazard E O' t ->
  NewTypeDecoder E (Some pt) (oTag O) = Ok (Some d) -> typed E t z -> blank E t z -> tree_of W n j -> backs E O' t v j ->
  exists v', Decode E pi W d (Some (pt, VPtr (Some z))) n = Ok (Some (pt, VPtr (Some v')), None) /\ agree E O' t v v'.
Proof.
  intros Wf ES C (P & Tp & Kp & Up) Dc Nl Hz Nd Tz Bz Tr (Nm & St & _).
  destruct (made_dec E pt (oTag O) P t (normalize (tagOnly (oTag O))) ltac:(apply completed_lem; reflexivity) Tp Kp Up d Nd) as (o & G & -> & Nc).
  assert (Et : oTag (normalize (tagOnly (oTag O))) = oTag O') by (apply completed_lem in C; subst O'; reflexivity).
  pose proof (made_good_tag E O' _ W n t z j o G Wf ES Et Dc Nl Nc Tz Tr) as Gd. unfold Decode. rewrite Tp, Nat.eqb_refl. cbn [negb].
  destruct (decode (decodeFuel E W n) E G W o z n) as [[v' err]| |]; cbn [good bind fst snd] in *; [|contradiction|contradiction]. destruct Gd as [T' [[-> Sd]|[Mm _]]]; [|contradiction].
  exists v'. split; [reflexivity|]. eapply St; eassumption.
Qed.
Lemma C58_lem E O O' m d t pt v z out : wf_types E -> embeds_structs E -> (forall u, ~ cyclic E defaultOptions u) -> ftoa_spec (ftoa E) -> walks_maps E -> completed O O' -> tags_json E O' ->
  (exists P, typeOf E pt = Some P /\ tkind P = KPtr t /\ no_unmarshaler (tmeth P)) -> decodable E O' t -> no_pointer_loop E -> ~ hazard E O' t -> bare E O' t ->
  (forall T, typeOf E t = Some T -> (forall e, tkind T <> KPtr e) -> no_marshaler (tptr T)) ->
  NewTypeEncoder E (Some t) O = Ok (Some m) -> NewTypeDecoder E (Some pt) (oTag O) = Ok (Some d) ->
  typed E t v -> survives E O' t v -> v <> VPtr None -> typed E t z -> blank E t z ->
  exists w, Encode E m out (Some (t, v)) = Ok (out ++ w, None) /\
    forall pi W i, i < length W -> exists W' n v', Document_Parse W i w = Ok (W', (n, [], None)) /\ Decode E pi W' d (Some (pt, VPtr (Some z))) n = Ok (Some (pt, VPtr (Some v')), None) /\ agree E O' t v v'.
Proof.
  intros W ES NC FS WM C TJ (P & Tp & Kp & Up) Dc Nl Hz B Np Ne Nd T Sv Nv Tz Bz.
  destruct (C58_write E O O' m t v out W ES NC FS WM C TJ Dc Hz B Np Ne T Sv Nv) as (w & j & En & Jp & Bk). exists w. split; [exact En|]. intros pi W0 i Li.
  destruct (proj2 (Parse_tree_iff W0 i w j [])) as (W2 & n2 & P2 & Tr).
  { split; [exact Li|]. exists [], w. rewrite app_nil_r. split; [reflexivity|]. split; [constructor|]. split; [apply rfc_plain_lenient, tight_plain; exact Jp|]. intros _; exact I. }
  destruct (C58_read E O O' pi W2 n2 d t pt v z j W ES C ltac:(eauto) Dc Nl Hz Nd Tz Bz Tr Bk) as (v' & Dv & Ag). exists W2, n2, v'. auto.
Qed.

(* ---- the statements ---- *)
Lemma C56_new_top : forall E t O O', wf_types E -> completed O O' -> (forall u, ~ cyclic E O' u) -> t < length (types E) ->
  NewTypeEncoder E None O = Ok None /\
  exists r, NewTypeEncoder E (Some t) O = Ok r /\ (r = None <-> ~ encoded_by_method E t /\ exists u x, stands_for E t u /\ uses_star E O' (IEnc u) x /\ lacks E x).
Proof. intros E t O O' W C. apply completed_lem in C. subst. split; [reflexivity|]. apply C56_new_lem; assumption. Qed.
Lemma C56_top : forall E t O O' m out s v, go_env E -> completed O O' -> (forall u, ~ cyclic E defaultOptions u) -> tags_json E O' -> methods_return E -> methods_write_json E -> oNaN O = false -> oInf O = false ->
  NewTypeEncoder E (Some t) O = Ok (Some m) -> own_methods E t -> accepts E t s -> typed E s v -> v <> VPtr None -> tops_ok E v -> floats_json v ->
  exists res err, Encode E m out (Some (s, v)) = Ok (res, err) /\ (err = None -> exists j w, res = out ++ w /\ rfc_value j w).
Proof. intros E t O O' m out s v (W & ES & FS & WM & TJ) C. apply completed_lem in C. subst. intros. eapply C56_lem; eassumption. Qed.
Lemma C56_pointer_top : forall E t O O' m out s ps y r, completed O O' -> omits_by_value E (oOmitMethod O') -> NewTypeEncoder E (Some t) O = Ok (Some m) -> kindOf E ps = Some (KPtr s) -> (forall e, kindOf E s <> Some (KPtr e)) ->
  Encode E m out (Some (s, y)) = Ok r -> Encode E m out (Some (ps, VPtr (Some y))) = Ok r.
Proof. intros E t O O' m out s ps y r C. apply completed_lem in C. subst. apply C56_pointer_lem. Qed.
Lemma C58_top : forall E O O' m d t pt v z out, go_env E -> (forall u, ~ cyclic E defaultOptions u) -> completed O O' -> tags_json E O' -> both_ways E O' pt t -> ~ hazard E O' t ->
  NewTypeEncoder E (Some t) O = Ok (Some m) -> NewTypeDecoder E (Some pt) (oTag O) = Ok (Some d) -> typed E t v -> survives E O' t v -> v <> VPtr None -> typed E t z -> blank E t z ->
  exists w, Encode E m out (Some (t, v)) = Ok (out ++ w, None) /\
    forall pi W i, i < length W -> exists W' n v', Document_Parse W i w = Ok (W', (n, [], None)) /\ Decode E pi W' d (Some (pt, VPtr (Some z))) n = Ok (Some (pt, VPtr (Some v')), None) /\ agree E O' t v v'.
Proof. intros E O O' m d t pt v z out (W & ES & FS & WM & TJ) NC C Tj (P & Dc & Nl & B & Np). intros. eapply C58_lem; eassumption. Qed.
