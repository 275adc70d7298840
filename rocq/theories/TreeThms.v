(* The fields of a struct (C46) and the tree of a value (C69). *)
From Coq Require Import Permutation.
From Verif Require Import FloatSpec FmtSpec Bytes Types JsonSpec Parser Doc DocSpec Strjson StrSpec StrThms Float Num NumSpec SetThms NumThms FmtThms OptThms Options Iface IfaceSpec Codec CodecSpec DecodeSpec RoundSpec CodecMerge CodecBase CodecBuild CodecOmit CodecEnc CodecJson TreeSpec.
Local Open Scope nat_scope.

(* ---- C46 ---- *)
Lemma Get_fold key l : Get (fold_left add l []) key = hd_error (with_key key l).
Proof. rewrite Get_hd, with_key_fold. change (with_key key []) with (@nil codec). cbv iota. destruct (with_key key l); reflexivity. Qed.
Lemma kept_fold : forall l a, ForallOrdPairs (fun c d => before (cindex c) (cindex d)) (a ++ l) -> exists cs, kept a l cs /\ fold_left add (a ++ l) [] = fold_left add a [] ++ cs.
Proof.
  induction l as [|c l IH]; intros a F; [exists []; split; [constructor|rewrite !app_nil_r; reflexivity]|].
  assert (Ea : a ++ c :: l = (a ++ [c]) ++ l) by (rewrite <- app_assoc; reflexivity). rewrite Ea in *. destruct (IH (a ++ [c]) F) as (cs & K & ->). rewrite fold_left_app. cbn [fold_left]. unfold add at 1. rewrite Get_fold.
  destruct (with_key (ckey c) a) as [|d r] eqn:W; cbn [hd_error].
  - exists (c :: cs). split; [constructor; [intros d r C; congruence|exact K]|]. rewrite <- app_assoc. reflexivity.
  - destruct (Nat.lt_ge_cases (length (cindex c)) (length (cindex d))) as [L|L].
    + exists (c :: cs). split; [constructor; [intros d' r' C; congruence|exact K]|]. unfold cmpIndex. rewrite (proj2 (Nat.ltb_lt _ _) L). cbn [Z.eqb Pos.eqb]. rewrite <- app_assoc. reflexivity.
    + exists cs. split; [eapply kp_leave; eassumption|].
      assert (B : before (cindex d) (cindex c)).
      { assert (Id : In d a) by (assert (I : In d (with_key (ckey c) a)) by (rewrite W; left; reflexivity); apply filter_In in I as [I _]; exact I).
        rewrite <- app_assoc in F. clear - F Id. induction a as [|x a IH]; [destruct Id|]. cbn in F. inversion F as [|? ? Fx Fa]; subst. destruct Id as [->|Id]; [|apply IH; assumption].
        rewrite Forall_forall in Fx. apply Fx. apply in_app_iff. right. left. reflexivity. }
      pose proof (before_wins d c B L) as Wn. unfold wins in Wn. rewrite Wn. reflexivity.
Qed.
Lemma C46_exact_lem E O t cs : structFields E O t = Ok cs -> struct_fields E O t cs.
Proof.
  intro H. destruct (structFields_offers _ _ _ _ H) as (l & Ol & ->). destruct (proj1 (offers_paths E O) _ _ _ Ol) as [P _]. apply FOP_map in P.
  destruct (kept_fold l [] P) as (cs & K & Ec). cbn [app fold_left] in Ec. exists l. split; auto. rewrite Ec. exact K.
Qed.
Lemma kept_det a l cs : kept a l cs -> forall cs', kept a l cs' -> cs = cs'.
Proof.
  induction 1 as [|a c l cs H K IH|a c d r l cs W L K IH]; intros cs' K'; inversion K' as [|? ? ? ? H' K''|? ? ? ? ? ? W' L' K'']; subst; auto.
  - f_equal; auto.
  - exfalso. specialize (H _ _ W'). lia.
  - exfalso. specialize (H' _ _ W). lia.
Qed.
Lemma struct_fields_det E O t cs cs' : struct_fields E O t cs -> struct_fields E O t cs' -> cs = cs'.
Proof. intros (l & Ol & K) (l' & Ol' & K'). rewrite (proj1 (offers_det E O) _ _ _ Ol' _ Ol) in K'. eapply kept_det; eassumption. Qed.

(* ---- C69 ---- *)
Definition shows (P : jval -> Prop) (w : bytes) : Prop := exists j, rfc_value j w /\ P j.
Lemma array_shows : forall js ws, Forall2 rfc_value js ws -> rfc_value (JArr js) (x5b :: join x2c ws ++ [x5d]).
Proof.
  intros ? ? [|j w js ws J F]; [exact (v_arr0 JsonSpec.ws rfc_chars rfc_chars rfc_number [] ws_nil)|]. apply v_arr. revert j w J.
  induction F as [|j' w' js ws J' F IH]; intros j w J.
  - change (join x2c [w]) with w. pose proof (el_one JsonSpec.ws rfc_chars rfc_chars rfc_number [] j w [] ws_nil J ws_nil) as H. rewrite app_nil_r in H. exact H.
  - change (join x2c (w :: w' :: ws)) with (w ++ x2c :: join x2c (w' :: ws)). exact (el_cons JsonSpec.ws rfc_chars rfc_chars rfc_number [] j w [] _ _ ws_nil J ws_nil (IH j' w' J')).
Qed.
Definition same_member (jm : bytes * jval) (m : bytes * bytes) : Prop := fst jm = fst m /\ rfc_chars (fst m) /\ rfc_value (snd jm) (snd m).
Lemma object_shows : forall js ms, Forall2 same_member js ms -> rfc_value (JObj js) (x7b :: join x2c (map member ms) ++ [x7d]).
Proof.
  intros ? ? [|j w js ws J F]; [exact (v_obj0 JsonSpec.ws rfc_chars rfc_chars rfc_number [] ws_nil)|]. apply v_obj. revert j w J.
  induction F as [|j' w' js ws J' F IH]; intros [key j] [key' w] (E1 & R & J); cbn [fst snd] in *; subst key'.
  - cbn [map]. change (join x2c [member (key, w)]) with (member (key, w)). pose proof (mem_one JsonSpec.ws rfc_chars rfc_chars rfc_number [] key [] [] j w [] ws_nil R ws_nil ws_nil J ws_nil) as H. cbn [app] in H. rewrite app_nil_r in H. exact H.
  - specialize (IH j' w' J'). cbn [map] in *. change (join x2c (member (key, w) :: member w' :: map member ws)) with (member (key, w) ++ x2c :: join x2c (member w' :: map member ws)).
    pose proof (mem_cons JsonSpec.ws rfc_chars rfc_chars rfc_number [] key [] [] j w [] _ _ ws_nil R ws_nil ws_nil J ws_nil IH) as Q. cbn [app] in Q. unfold member at 1. cbn [app fst snd]. rewrite <- app_assoc. cbn [app]. exact Q.
Qed.
Lemma encodeFloat_shows E O b f : finite_only O -> ftoa_spec (ftoa E) -> canonical b64 f -> (finite f -> exists g, narrow 32 f g /\ finite g) -> part (encodeFloat E O b f) b (fun s => rfc_number s /\ writes E f s).
Proof.
  intros (ON & OI) S C Hf. destruct f as [|s|s m e]; [cbn; rewrite ON; discriminate|cbn; rewrite OI; discriminate|]. cbn [encodeFloat]. destruct (Hf Logic.I) as (g & Nw & Fg).
  destruct (C38_lem (ftoa E) b _ g 32 S C Nw Fg) as (p & p' & _ & A & _ & R & _). destruct (C38_dst_lem (ftoa E) b _ g 32 S C Nw Fg) as (s' & Ff & A'). rewrite A. apply part_lit. split; auto. split; auto. split; [eauto|].
  rewrite Ff. f_equal. rewrite A in A'. injection A' as A'. apply app_inv_head in A'. congruence.
Qed.
Lemma each_shows E O addr h e : forall l ws, Forall2 (fun x => shows (tree E O addr h e x)) l ws -> exists js, Forall2 rfc_value js ws /\ each_tree E O addr h e l js.
Proof.
  induction 1 as [|x w l ws (j & J & T) F (js & Fj & Ej)]; [exists []; split; constructor|]. exists (j :: js). split; constructor; assumption.
Qed.
Lemma fields_show E O addr v : forall cs ms, (forall c, In c cs -> rfc_chars (ckey (fst c))) ->
  wrote (fun c => dropped E O addr (fst c)) (fun c x => shows (tree E O addr (chints (fst c)) (ctype (fst c)) x)) v cs ms ->
  exists js, Forall2 same_member js ms /\ field_trees E O addr v (map fst cs) js.
Proof.
  intros cs ms Hk W. induction W as [|c cs ms U W IH|c x cs ms R D W IH|c x cs ms w R D (j & J & T) W IH].
  - exists []. split; constructor.
  - destruct IH as (js & F & Ft); [intros; apply Hk; right; assumption|]. exists js. split; [exact F|]. apply ft_unreachable; assumption.
  - destruct IH as (js & F & Ft); [intros; apply Hk; right; assumption|]. exists js. split; [exact F|]. eapply ft_dropped; eassumption.
  - destruct IH as (js & F & Ft); [intros; apply Hk; right; assumption|]. exists ((ckey (fst c), j) :: js). split; [|eapply ft_member; eassumption]. constructor; [|exact F]. split; [reflexivity|]. split; [apply Hk; left; reflexivity|exact J].
Qed.
Lemma marshals_iff m : marshals m = false <-> no_marshaler m.
Proof. unfold marshals, no_marshaler. split; [intro H; apply orb_false_elim in H as [H ?]; apply orb_false_elim in H as [? ?]; auto|intros (-> & -> & ->); reflexivity]. Qed.
Lemma unmarshals_iff m : unmarshals m = false <-> no_unmarshaler m.
Proof. unfold unmarshals, no_unmarshaler. split; [intro H; apply orb_false_elim in H as [H ?]; apply orb_false_elim in H as [? ?]; auto|intros (-> & -> & ->); reflexivity]. Qed.
(* the methods *)
Lemma method_shows E O addr h t T v b : methods_write_json E -> typeOf E t = Some T -> marshals (tmeth T) = true ->
  part (if isAppender (tmeth T) then callAppend E t v b else if isJSON (tmeth T) then encodeJSON E t b v else encodeText E t b v) b (shows (tree E O addr h t v)).
Proof.
  intros (MA & MJ & MT) Ty M. destruct (isAppender (tmeth T)) eqn:A; [|destruct (isJSON (tmeth T)) eqn:J].
  - intros out H. destruct (MA _ _ _ _ H) as (w & j & -> & R). exists w. split; auto. exists j. split; auto. eapply tr_append; eassumption.
  - eapply part_imp; [apply encodeJSON_part|]. intros w [H|[_ H]]; destruct (MJ _ _ _ H) as (w' & j & K & R); [injection K as <-; exists j; split; auto; eapply tr_json; eassumption|discriminate].
  - eapply part_imp; [apply encodeText_part|]. intros w (x & H & ->). exists (JStr x). split; [apply v_str; exact (MT _ _ _ H)|]. eapply tr_text; try eassumption.
    unfold marshals in M. rewrite A, J in M. exact M.
Qed.
Lemma encodeTop_shows (enc : list cobj -> nat -> bool -> encodes) E t b v : methods_write_json E -> typed E t v -> top_ok E t v ->
  (forall mt G o addr x, newCodec E defaultOptions (IEnc mt) = Ok (Some (o, G)) -> typed E mt x -> inside v x -> part (enc G o addr b x) b (shows (tree E defaultOptions addr 0%N mt x))) ->
  part (encodeTop enc E t b v) b (shows (top_tree E t v)).
Proof.
  intros MW Tv (Nv & Tk) HE. unfold encodeTop. destruct (typeOf E t) as [T|] eqn:Ty; [|discriminate]. specialize (Tk T eq_refl). pose proof (typeOf_kindOf _ _ _ Ty) as K.
  assert (M : forall mt pm x addr, (forall Y, typeOf E mt = Some Y -> same_marshals pm (tmeth Y)) -> typed E mt x -> inside v x ->
    part (let! m := if marshals pm then Ok (Some None) else let! r := newCodec E defaultOptions (IEnc mt) in Ok (option_map Some r) in
      match m with
      | None => Ok ([], Some UInvalidType)
      | Some m =>
          match typeOf E mt with
          | None => Panic
          | Some M => match m with
              | Some (o, G) => enc G o addr b x
              | None =>
                  if isAppender pm then if isAppender (tmeth M) then callAppend E mt x b else Panic
                  else if isJSON pm then if isJSON (tmeth M) then encodeJSON E mt b x else Panic
                  else if isText (tmeth M) then encodeText E mt b x else Panic
              end
          end
      end) b (shows (tree E defaultOptions addr 0%N mt x))).
  { intros mt pm x addr Sm Tx Ix. apply part_bind. intros m Em. destruct m as [m|]; [|discriminate]. destruct (typeOf E mt) as [Y|] eqn:Tm; [|discriminate]. destruct (Sm Y eq_refl) as (SA & SJ & ST). destruct m as [[o G]|].
    - apply (HE mt); auto. destruct (marshals pm); [discriminate|]. ok Em. injection Em as Em. destruct x0 as [r|]; [|discriminate]. injection Em as ->. exact H.
    - rewrite SA, SJ. assert (Mp : marshals (tmeth Y) = true) by (unfold marshals in Em |- *; rewrite SA, SJ, ST in Em; destruct (isAppender (tmeth Y) || isJSON (tmeth Y) || isText (tmeth Y)); [reflexivity|]; ok Em; destruct x0; discriminate).
      pose proof (method_shows E defaultOptions addr 0%N mt Y x b MW Tm Mp) as P. destruct (isAppender (tmeth Y)); [exact P|]. destruct (isJSON (tmeth Y)); [exact P|]. destruct (isText (tmeth Y)); [exact P|discriminate]. }
  destruct (tkind T) eqn:Kx.
  8:{ inv_typed Tv. assert (e0 = e) by congruence. subst e0. eapply part_imp; [apply (M e (tmeth T) x true); [exact Tk|assumption|repeat constructor]|]. intros w (j & J & Tr). exists j. split; auto. eapply tt_ptr; eassumption. }
  all: eapply part_imp; [apply (M t (tptr T) v false); [intros Y Ey; rewrite Ey in Ty; injection Ty as ->; exact Tk|assumption|constructor]|]; intros w (j & J & Tr); exists j; split; auto; apply tt_value; [intros e' C; congruence|exact Tr].
Qed.
Lemma encode_tree E : methods_write_json E -> tags_json E defaultOptions -> ftoa_spec (ftoa E) -> walks_maps E -> embeds_structs E ->
  forall fuel O G o t h addr b v, finite_only O -> tags_json E O -> typed E t v -> floats_json v -> tops_ok E v -> rawOK h -> sound E O G -> serves E G o (IEnc t) h ->
  part (encode fuel E G O o addr b v) b (shows (tree E O addr h t v)).
Proof.
  intros MW TJ0 S WM ES. pose proof MW as (MA & MJ & MT).
  assert (SP : forall html s b, part (encodeString html b s) b (fun w => exists x, w = x22 :: x ++ [x22] /\ rfc_chars x /\ Escaped s html false = Ok x)) by (intros html s b; destruct (encodeString_spec html b s) as (w & -> & R & Es); apply part_lit; eauto).
  induction fuel as [|k IH]; [discriminate|]. intros O G o t h addr b v FO TJ Tv C Tp Rh Sd Sv. cbn [encode]. destruct (serves_cases E _ G o _ _ Sd Sv) as (T & Ty & Cs). cbn [itype] in *. pose proof (typeOf_kindOf _ _ _ Ty) as Kt.
  destruct Cs as [[Hd ->]|[(l0 & fs & K & -> & Hz & Sc)|(Hd & Ns & h' & p & Hh & -> & Sc)]].
  { rewrite Ty. apply method_shows; assumption. }
  { destruct Sc as (T0 & l1 & Ty0 & _ & Mm & Sf & F). rewrite Forall_forall in F. rewrite Ty in Ty0. injection Ty0 as <-.
    eapply part_imp; [apply (encodeFields_part _ _ (fun c => dropped E O addr (fst c)) (fun c x => shows (tree E O addr (chints (fst c)) (ctype (fst c)) x)))|].
    + intros c x b0 Ic. apply omit_spec; [exact Sd|exact (proj2 (F c Ic))].
    + intros c x b' Ic R. destruct (TJ _ _ _ Sf (in_map fst _ _ Ic)) as [_ Rc]. pose proof (reaches_inside _ _ _ R) as Ix.
      destruct (codec_field E O _ _ v (fst c) ES Sf Tv (in_map fst _ _ Ic)) as (o' & Eo & Ho). apply (fieldByIndex_reaches _ _ _ Eo) in R as ->. destruct Ho as (Tx & _ & _).
      apply (IH O G _ (ctype (fst c)) (chints (fst c))); [exact FO|exact TJ|exact Tx|eapply floats_inside; eassumption|eapply tops_inside; eassumption| |exact Sd|exact (proj2 (F c Ic))].
      intro Hr. apply N.eqb_eq. apply Rc. apply N.eqb_eq. exact Hr.
    + intros w (ms & W & ->). destruct (fields_show E O addr v fs ms) as (js & Fj & Ft); [intros c Ic; exact (proj1 (TJ _ _ _ Sf (in_map fst _ _ Ic)))|exact W|]. exists (JObj js). split; [exact (object_shows js ms Fj)|].
      assert (Kd : kind_tree E O addr h t (tkind T) v (JObj js)) by (rewrite K; eapply kt_struct; [apply C46_exact_lem; exact Sf|exact Ft]).
      destruct (marshals (tmeth T)) eqn:Ma.
      * destruct Mm as [Mm|Mm]; [|congruence]. destruct Hz as [->|Hd]; [|cbn in Hd; congruence]. eapply tr_cached; [exact Ty|exact K|apply unmarshals_iff; exact Mm|exact Kd].
      * eapply tr_kind; [exact Ty|apply marshals_iff; exact Ma|exact Kd]. }
  rewrite Ty. cbn [handled idec] in Hd. apply marshals_iff in Hd.
  assert (TK : forall r, part r b (shows (kind_tree E O addr h t (tkind T) v)) -> part r b (shows (tree E O addr h t v))) by (intros r H; eapply part_imp; [exact H|]; intros w (j & J & Kj); exists j; split; auto; eapply tr_kind; eassumption).
  apply TK. clear TK.
  assert (NL : rfc_value JNull strNull) by exact (v_null JsonSpec.ws rfc_chars rfc_chars rfc_number).
  assert (Eh : (forall k e, tkind T <> KMap k e) -> h' = h) by (intro Nm; destruct Hh as [->|(k' & e' & Km)]; [reflexivity|exfalso; exact (Nm _ _ Km)]).
  destruct Sc as (T0 & Ty0 & _ & Sk). cbn [itype] in Ty0. rewrite Ty in Ty0. injection Ty0 as <-.
  destruct (tkind T) as [| | | | | |[]|e|e|n e|kt e|fs|] eqn:Kx; try discriminate; try (rewrite (Eh ltac:(discriminate)) in *).
  - destruct v as [x| | | | | | | | | | |]; try discriminate. apply part_lit. destruct x; [exists JTrue; split; [exact (v_true JsonSpec.ws rfc_chars rfc_chars rfc_number)|constructor]|exists JFalse; split; [exact (v_false JsonSpec.ws rfc_chars rfc_chars rfc_number)|constructor]].
  - destruct v as [|z| | | | | | | | | |]; try discriminate. apply part_lit. exists (JNum (FormatInt z)). split; [apply v_num; apply FormatInt_number|constructor].
  - destruct v as [| |z| | | | | | | | |]; try discriminate. apply part_lit. eexists (JNum _). split; [apply v_num; apply FormatUint_number|constructor].
  - destruct v as [| | |f| | | | | | | |]; try discriminate. destruct (C f ltac:(constructor)). eapply part_imp; [apply encodeFloat_shows; assumption|]. intros w (R & Wr). exists (JNum w). split; [apply v_num; exact R|apply kt_float; auto].
  - destruct v as [| | |f| | | | | | | |]; try discriminate. destruct (C f ltac:(constructor)). eapply part_imp; [apply encodeFloat_shows; assumption|]. intros w (R & Wr). exists (JNum w). split; [apply v_num; exact R|apply kt_float; auto].
  - destruct v as [| | | |s| | | | | | |]; try discriminate. destruct (hasHint h hintHTML) eqn:Hx.
    + eapply part_imp; [apply SP|]. intros w (x & -> & R & Es). exists (JStr x). split; [apply v_str; exact R|]. apply kt_html; [apply N.eqb_eq; exact Hx|exact Es].
    + destruct (hasHint h hintRaw) eqn:Hr; [exfalso; rewrite (Rh Hr) in Hx; discriminate|]. eapply part_imp; [apply SP|]. intros w (x & -> & R & Es). exists (JStr x). split; [apply v_str; exact R|]. apply kt_string; [intro Q; apply N.eqb_eq in Q; unfold hasHint in Hx; congruence|intro Q; apply N.eqb_eq in Q; unfold hasHint in Hr; congruence|exact Es].
  - inv_typed Tv; [apply part_lit; exists JNull; split; [exact NL|constructor]|]. eapply part_imp; [apply encodeTop_shows; auto; [apply Tp; constructor|]|intros w (j & J & Tr); exists j; split; [exact J|constructor; exact Tr]].
    intros mt G' o' ad y Nc Ty' I. destruct (newCodec_sound _ _ _ _ _ Nc). apply (IH defaultOptions G' o' mt 0%N); [split; reflexivity|exact TJ0|exact Ty'| | |discriminate|assumption|assumption].
    + eapply floats_inside; [exact C|]. constructor. exact I.
    + eapply tops_inside; [exact Tp|]. constructor. exact I.
  - inv_typed Tv; cbn [isNil bind]; [apply part_lit; exists JNull; split; [exact NL|constructor]|]. assert (e0 = e) by congruence. subst e0.
    eapply part_imp; [apply (IH O G p e h); auto; [eapply floats_inside; [exact C|repeat constructor]|eapply tops_inside; [exact Tp|repeat constructor]]|]. intros w (j & J & Tr). exists j. split; [exact J|constructor; exact Tr].
  - inv_typed Tv; [unfold append1; rewrite <- app_assoc; apply part_lit; exists (JArr []); split; [exact (array_shows [] [] ltac:(constructor))|constructor]|]. assert (e0 = e) by congruence. subst e0.
    eapply part_imp; [unfold append1; apply part_prefix; apply (encodeList_part _ (fun x => shows (tree E O true h e x)))|].
    + intros x b' I. apply (IH O G p e h); auto; [rewrite Forall_forall in H0; apply H0; exact I|eapply floats_inside; [exact C|eapply ins_slice; [exact I|constructor]]|eapply tops_inside; [exact Tp|eapply ins_slice; [exact I|constructor]]].
    + intros w (w' & -> & ws & F & ->). apply each_shows in F as (js & Fj & Ej). exists (JArr js). split; [exact (array_shows js ws Fj)|constructor; exact Ej].
  - inv_typed Tv. assert (Ln : length l = n) by congruence. assert (e0 = e) by congruence. subst e0. rewrite Ln, Nat.eqb_refl. eapply part_imp; [unfold append1; apply part_prefix; apply (encodeList_part _ (fun x => shows (tree E O addr h e x)))|].
    + intros x b' I. apply (IH O G p e h); auto; [rewrite Forall_forall in H1; apply H1; exact I|eapply floats_inside; [exact C|eapply ins_array; [exact I|constructor]]|eapply tops_inside; [exact Tp|eapply ins_array; [exact I|constructor]]].
    + intros w (w' & -> & ws & F & ->). apply each_shows in F as (js & Fj & Ej). exists (JArr js). split; [exact (array_shows js ws Fj)|constructor; [exact Ln|exact Ej]].
  - destruct Sk as [Ko Sk]. inv_typed Tv; [apply part_lit; exists JNull; split; [exact NL|constructor]|]. assert (k0 = kt /\ e0 = e) as [-> ->] by (split; congruence). rewrite Forall_forall in H0.
    eapply part_imp; [unfold append1; apply part_prefix; apply (encodeMap_part _ _ (fun key w => exists x, w = x22 :: x ++ [x22] /\ rfc_chars x /\ key_shows E kt key x) (fun x => shows (tree E O false 0%N e x)))|].
    + intros key x b' I. assert (I' : In (key, x) m) by (eapply Permutation_in; [apply WM|exact I]). destruct (H0 _ I') as [Tk Tx]. cbn [fst snd] in Tk, Tx. split.
      * unfold encodeKey. destruct (typeOf E kt) as [K|] eqn:Tkt; [|discriminate]. destruct (isText (tmeth K)) eqn:It.
        -- eapply part_imp; [apply encodeText_part|]. intros w (y & Hy & ->). exists y. split; [reflexivity|]. split; [exact (MT _ _ _ Hy)|]. exists K. auto.
        -- destruct key; try discriminate. eapply part_imp; [apply SP|]. intros w (y & -> & R & Es). exists y. split; [reflexivity|]. split; [exact R|]. exists K. split; auto. right. split; eauto.
      * apply (IH O G p e 0%N); auto; [eapply floats_inside; [exact C|eapply ins_map; [exact I'|constructor]]|eapply tops_inside; [exact Tp|eapply ins_map; [exact I'|constructor]]|discriminate].
    + intros w (w' & -> & ms & F & ->).
      match goal with F : Forall2 _ ?m' ms |- _ => assert (Gm : exists ms' js, map (fun q => fst q ++ x3a :: snd q) ms = map member ms' /\ Forall2 same_member js ms' /\ entry_trees E O kt e m' js) end.
      { clear - F. induction F as [|[key x] [wk w] l ms ((y & Ex & Rx & Ks) & j & J & Tr) F (ms' & js & Em & Fm & En)]; [exists [], []; repeat split; constructor|]. cbn [fst snd] in *. exists ((y, w) :: ms'), ((y, j) :: js). split; [|split; constructor; [split; [reflexivity|split; assumption]|assumption|assumption|assumption|assumption]].
        cbn [map]. rewrite Em. f_equal. cbn [fst snd]. rewrite Ex. unfold member. cbn [fst snd app]. rewrite <- app_assoc. reflexivity. }
      destruct Gm as (ms' & js & Em & Fj & En). exists (JObj js). split; [cbn [sepd app]; rewrite Em; exact (object_shows js ms' Fj)|]. eapply kt_map; [apply WM|exact En].
Qed.
Lemma C69_lem E out t v res : wf_types E -> embeds_structs E -> walks_maps E -> ftoa_spec (ftoa E) -> tags_json E defaultOptions -> methods_write_json E ->
  typed E t v -> top_ok E t v -> tops_ok E v -> floats_json v -> AppendJSON E out (Some (t, v)) = Ok (res, None) -> exists j w, res = out ++ w /\ rfc_value j w /\ top_tree E t v j.
Proof.
  intros W ES WM FS TJ MW T To Tp Fl H. unfold AppendJSON in H.
  assert (Pt : part (encodeTop (fun G o => encode (vdepth v) E G defaultOptions o) E t out v) out (shows (top_tree E t v))).
  { apply encodeTop_shows; auto. intros mt G o ad y Nc Ty I. destruct (newCodec_sound _ _ _ _ _ Nc). apply (encode_tree E) with (h := 0%N); auto; [split; reflexivity|eapply floats_inside; eassumption|eapply tops_inside; eassumption|discriminate]. }
  destruct (Pt res H) as (w & -> & j & J & Tr). eauto 6.
Qed.
