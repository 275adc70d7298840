(* Proofs for C61: what the generated AppendJSON methods write. *)
From Coq Require Import Permutation.
From Verif Require Import FloatSpec NumSpec FmtSpec StrSpec Bytes Types JsonSpec Parser Doc DocSpec Strjson Float Num Iface IfaceSpec OptThms FmtThms Options Codec CodecSpec CodecMerge CodecBase CodecOmit CodecEnc CodecJson DecodeSpec Gen GenSpec GoLit GoLitThms GenMake.
Local Open Scope nat_scope.

Section Grammar.
  Variables wsOK strOK : bytes -> Prop.
  Hypothesis W0 : wsOK [].
  Notation J := (value wsOK strOK rfc_chars rfc_number).
  Lemma g_elements : forall ws w js j, Forall2 J (j :: js) (w :: ws) -> elements wsOK strOK rfc_chars rfc_number (j :: js) (join x2c (w :: ws)).
  Proof.
    induction ws as [|w' ws IH]; intros w js j F; inversion F as [|? ? ? ? Jw Fr]; subst; inversion Fr; subst.
    - change (join x2c [w]) with w. pose proof (el_one wsOK strOK rfc_chars rfc_number [] j w [] W0 Jw W0) as H. rewrite app_nil_r in H. exact H.
    - change (join x2c (w :: w' :: ws)) with (w ++ x2c :: join x2c (w' :: ws)). exact (el_cons wsOK strOK rfc_chars rfc_number [] j w [] _ _ W0 Jw W0 (IH _ _ _ Fr)).
  Qed.
  Lemma g_array js ws : Forall2 J js ws -> J (JArr js) (x5b :: join x2c ws ++ [x5d]).
  Proof. intro F. destruct F as [|j w js ws Jw F]; [exact (v_arr0 wsOK strOK rfc_chars rfc_number [] W0)|]. apply v_arr. apply g_elements. constructor; assumption. Qed.
  Definition gmember (mj : bytes * jval) (m : bytes * bytes) : Prop := fst mj = fst m /\ rfc_chars (fst m) /\ J (snd mj) (snd m).
  Lemma g_members : forall ms m mjs mj, Forall2 gmember (mj :: mjs) (m :: ms) -> members wsOK strOK rfc_chars rfc_number (mj :: mjs) (join x2c (map member (m :: ms))).
  Proof.
    induction ms as [|m' ms IH]; intros m mjs [k j] F; inversion F as [|? ? ? ? (Ek & R & Jw) Fr]; subst; cbn [fst snd] in *; subst k; inversion Fr; subst.
    - cbn [map]. change (join x2c [member m]) with (member m). pose proof (mem_one wsOK strOK rfc_chars rfc_number [] (fst m) [] [] j (snd m) [] W0 R W0 W0 Jw W0) as H. cbn [app] in H. rewrite app_nil_r in H. exact H.
    - cbn [map] in *. change (join x2c (member m :: member m' :: map member ms)) with (member m ++ x2c :: join x2c (member m' :: map member ms)).
      pose proof (mem_cons wsOK strOK rfc_chars rfc_number [] (fst m) [] [] j (snd m) [] _ _ W0 R W0 W0 Jw W0 (IH _ _ _ Fr)) as Q. cbn [app] in Q. unfold member at 1. cbn [app]. rewrite <- app_assoc. cbn [app]. exact Q.
  Qed.
  Lemma g_object mjs ms : Forall2 gmember mjs ms -> J (JObj mjs) (x7b :: join x2c (map member ms) ++ [x7d]).
  Proof. intro F. destruct F as [|mj m mjs ms Jm F]; [exact (v_obj0 wsOK strOK rfc_chars rfc_number [] W0)|]. apply v_obj. apply g_members. constructor; assumption. Qed.
End Grammar.

Lemma digit_chars l : Forall digit l -> rfc_chars l.
Proof. induction 1 as [|d l D F IH]; [constructor|]. unfold digit in D. constructor; auto; [lia|intros ->|intros ->]; change (bN x22) with 34%N in D; change (bN x5c) with 92%N in D; lia. Qed.
Lemma uint_chars n : rfc_chars (FormatUint n).
Proof. apply digit_chars. destruct (FormatUint_rfc n) as [|d ds D F]; [repeat constructor; vm_compute; discriminate|]. constructor; auto. unfold digit19, digit in *. lia. Qed.
Lemma int_chars z : rfc_chars (FormatInt z).
Proof. unfold FormatInt. destruct (z <? 0)%Z; [|apply uint_chars]. constructor; [vm_compute; discriminate|discriminate|discriminate|apply uint_chars]. Qed.
Lemma key_chars k s : key_text k s -> rfc_chars s.
Proof. destruct 1; auto using int_chars, uint_chars; repeat (constructor; [vm_compute; discriminate|discriminate|discriminate|]); constructor. Qed.
Lemma finite_inside v x : finite_floats v -> inside v x -> finite_floats x.
Proof. intros C I f If. apply C. eapply inside_trans; eassumption. Qed.

Lemma plain_chars name : plain_name name -> rfc_chars name.
Proof. induction 1 as [|c l (A & B & C) F IH]; constructor; auto. Qed.
Lemma plain_lit name : plain_name name -> litText name = name.
Proof.
  intro P. unfold plain_name in P. rewrite Forall_forall in P. apply litText_plain; intro I; destruct (P _ I) as (A & B & C); try congruence. vm_compute in A. congruence.
Qed.

Section Write.
  Variables (E : env) (G : gopts) (M : genv).
  Hypothesis W : wf_types E.
  Hypothesis P : paths_ok E M.
  Hypothesis S : ftoa_spec (ftoa E).
  Hypothesis WM : walks_maps E.
  Hypothesis MR : methods_return E.
  Variables wsOK strOK : bytes -> Prop.
  Hypothesis W0 : wsOK [].
  Notation J := (value wsOK strOK rfc_chars rfc_number).
  (* the type the method is for, and the values that are written well *)
  Variable t0 : tid.
  Variable okv : tid -> gv -> Prop.
  Hypothesis ok_float : forall t f, written_kind E t KFloat32 \/ written_kind E t KFloat64 -> okv t (VFloat f) -> canonical b64 f /\ finite f.
  Hypothesis ok_string : forall t s w, written_kind E t KString -> okv t (VString s) -> Escaped s false false = Ok w -> strOK w.
  Hypothesis ok_ptr : forall t e x, written_kind E t (KPtr e) -> okv t (VPtr (Some x)) -> okv e x.
  Hypothesis ok_slice : forall t e l s x, written_kind E t (KSlice e) -> okv t (VSlice (Some (l, s))) -> In x l -> okv e x.
  Hypothesis ok_map : forall t k e m key x, written_kind E t (KMap k e) -> okv t (VMap (Some m)) -> In (key, x) m -> okv e x /\ exists K, typeOf E k = Some K /\ no_marshaler (tmeth K) /\ match tkind K with KBool | KInt _ | KUint _ => True | _ => False end.
  Hypothesis ok_field : forall t fs l name params f x, written_kind E t (KStruct fs) -> typed E t (VStruct l) -> okv t (VStruct l) -> leads G (fieldsOf M t) name params f -> reaches (VStruct l) (mpath f) x -> ~ left_out E G params (mtype f) x ->
    okv (mtype f) x.
  (* what the methods of a type write *)
  Definition meth_ok (u : tid) : Prop := forall T, typeOf E u = Some T ->
    (isAppender (tmeth T) = true -> forall v b out, okv u v -> callAppend E u v b = Ok (out, None) -> exists w j, out = b ++ w /\ rfc_value j w /\ J j w) /\
    (isAppender (tmeth T) = false -> isJSON (tmeth T) = true -> forall v r, okv u v -> callJSON E u v = Ok (r, None) -> exists w j, r = Some w /\ rfc_value j w /\ J j w) /\
    (isAppender (tmeth T) = false -> isJSON (tmeth T) = false -> isText (tmeth T) = true -> forall v w, okv u v -> callText E u v = Ok (w, None) -> strOK w).
  Definition fit (p : tid * bool) : Prop :=
    snd p = false /\ meth_ok (fst p) /\ forall fs name params f, kindOf E (fst p) = Some (KStruct fs) -> leads G (fieldsOf M (fst p)) name params f -> plain_name name.
  (* an error of a method of a part *)
  Definition merr (v : gv) (e : uerr) : Prop :=
    exists u raw T x, star (needs E G M) (t0, false) (u, raw) /\ typeOf E u = Some T /\ inside v x /\ typed E u x /\ okv u x /\
      (isAppender (tmeth T) = true /\ (exists b o, callAppend E u x b = Ok (o, Some e)) \/
       isAppender (tmeth T) = false /\ isJSON (tmeth T) = true /\ (exists o, callJSON E u x = Ok (o, Some e)) \/
       isAppender (tmeth T) = false /\ isJSON (tmeth T) = false /\ isText (tmeth T) = true /\ exists o, callText E u x = Ok (o, Some e)).
  Lemma error_inside v x e : inside v x -> merr x e -> merr v e.
  Proof. intros I (u & raw & T & y & R & ET & Iy & H). exists u, raw, T, y. split; [exact R|]. split; [exact ET|]. split; [eapply inside_trans; eassumption|exact H]. Qed.
  (* a result: an error of a method, or the text of a tree *)
  Definition good (v : gv) (out : bytes) (Q : bytes -> Prop) (r : res (bytes * option uerr)) : Prop :=
    (exists out' e, r = Ok (out', Some e) /\ merr v e) \/ exists w, r = Ok (out ++ w, None) /\ Q w.
  Definition writes_at (t : tid) (v : gv) (w : bytes) : Prop := exists j, J j w /\ shown E G M t v j.

  Lemma runElems_good v0 t run : forall l first out, (forall x b, In x l -> inside v0 x /\ good x b (writes_at t x) (run b x)) ->
    good v0 out (fun w => exists js ws, Forall2 J js ws /\ shown_each E G M t l js /\ w = sepd first ws ++ [x5d]) (runElems run first l out).
  Proof.
    induction l as [|x l IH]; intros first out H; cbn [runElems].
    - right. exists [x5d]. split; [reflexivity|]. exists [], []. split; [constructor|]. split; [constructor|]. destruct first; reflexivity.
    - destruct (H x (if first then out else append1 out x2c) (or_introl eq_refl)) as (Ix & [(o & e & -> & Me)|(w & -> & j & Jw & Sh)]); cbn [bind].
      + left. exists o, e. split; auto. eapply error_inside; eassumption.
      + destruct (IH false ((if first then out else append1 out x2c) ++ w) ltac:(intros; apply H; right; assumption)) as [L|(w' & -> & js & ws & F & Se & ->)]; [left; exact L|]. right.
        exists (sepd first (w :: ws) ++ [x5d]). split; [|exists (j :: js), (w :: ws); split; [constructor; auto|split; [constructor; auto|reflexivity]]].
        rewrite <- sepd_cons, <- !app_assoc. destruct first; unfold append1; rewrite <- ?app_assoc; reflexivity.
  Qed.
  Lemma runEntries_good v0 t runKey run : forall m (more : bool) out, (forall k x b, In (k, x) m -> inside v0 x /\ (exists s, key_text k s /\ runKey b k = Ok (b ++ s, None)) /\ good x b (writes_at t x) (run b x)) ->
    good v0 out (fun w => exists mjs ms, Forall2 (gmember wsOK strOK) mjs ms /\ shown_entries E G M t m mjs /\ w = (if more then rest (map member ms) else x7b :: join x2c (map member ms)) ++ [x7d]) (runEntries runKey run more m out).
  Proof.
    induction m as [|[k x] m IH]; intros more out H; cbn [runEntries].
    - right. exists (closeObject more). split; [reflexivity|]. exists [], []. split; [constructor|]. split; [constructor|]. destruct more; reflexivity.
    - set (b := out ++ [if more then x2c else x7b; x22]). destruct (H k x b (or_introl eq_refl)) as (Ix & (s & Ks & Rk) & _). rewrite Rk. cbn [bind].
      destruct (H k x ((b ++ s) ++ [x22; x3a]) (or_introl eq_refl)) as (_ & _ & [(o & e & -> & Me)|(w & -> & j & Jw & Sh)]); cbn [bind].
      + left. exists o, e. split; auto. eapply error_inside; eassumption.
      + destruct (IH true (((b ++ s) ++ [x22; x3a]) ++ w) ltac:(intros; apply H; right; assumption)) as [L|(w' & -> & mjs & ms & F & Se & ->)]; [left; exact L|]. right.
        eexists. split; [|exists ((s, j) :: mjs), ((s, w) :: ms); split; [constructor; [split; [reflexivity|split; [eapply key_chars; eassumption|exact Jw]]|exact F]|split; [constructor; assumption|reflexivity]]].
        cbn [map]. rewrite join_rest, rest_cons. unfold member, b. cbn [fst snd]. destruct more; rewrite <- ?app_assoc; cbn [app]; rewrite <- ?app_assoc; cbn [app]; rewrite <- ?app_assoc; reflexivity.
  Qed.
  Lemma cond_vacant t x o : typed E t x -> x <> VPtr None -> typeOmiter E G t = Some o -> exists b, match o with Some o => condHolds E o x | None => Ok true end = Ok b /\ (b = false <-> vacant E G t x).
  Proof.
    intros Tx Nx H. unfold typeOmiter in H. destruct (typeOf E t) as [T|] eqn:ET; [|discriminate]. destruct (hasOmit (tmeth T) (gOmit G)) eqn:Hm.
    - injection H as <-. destruct MR as (_ & _ & _ & Mo & _). destruct (Mo t x Tx) as (b & Cb). exists (negb b). cbn [condHolds]. rewrite Cb. split; [reflexivity|]. split.
      + intro Q. destruct b; [|discriminate]. eapply va_method; eassumption.
      + intro V. destruct V as [t T' x ET' Hm' Cb'|t T' x ET' Hm' _ _ _]; [rewrite Cb in Cb'; injection Cb' as ->; reflexivity|congruence].
    - pose proof (typeOf_kindOf _ _ _ ET) as K.
      assert (Val : forall b, (b = false <-> go_empty x) -> (forall n e, tkind T <> KArray n e) -> tkind T <> KIface true -> b = false <-> vacant E G t x).
      { intros b (A & B) N1 N2. split; [intro Q; eapply va_value; eauto|]. intro V. destruct V as [t T' x ET' Hm' _|t T' x ET' Hm' _ _ Ge]; [congruence|auto]. }
      assert (Ar : (exists n e, tkind T = KArray n e) \/ tkind T = KIface true -> ~ vacant E G t x).
      { intros Q V. destruct V as [t T' x ET' Hm' _|t T' x ET' Hm' N1 N2 Ge]; [congruence|]. assert (T' = T) as -> by congruence. destruct Q as [(n & e & Q)|Q]; [exact (N1 _ _ Q)|contradiction]. }
      destruct (tkind T) as [| | | | | |[]|e|e|n e|kt e|fs|] eqn:Kt; try discriminate; injection H as <-;
        try (exists true; split; [reflexivity|]; split; [discriminate|]; intro V; destruct (Ar ltac:(eauto) V));
        (inversion Tx; subst; try congruence; try (match goal with A : kindOf E t = Some KFloat32 \/ kindOf E t = Some KFloat64 |- _ => destruct A; congruence end));
        (eexists; split; [reflexivity|]; apply Val; [|discriminate|discriminate]).
      all: try (split; [intro Q; apply negb_false_iff in Q; try (apply Z.eqb_eq in Q; subst); constructor; assumption|intro Q; inversion Q; subst; try reflexivity; apply negb_false_iff; assumption]).
      + split; [intros ->; constructor|intro Q; inversion Q; reflexivity].
      + split; [intro Q; destruct s; [constructor|discriminate]|intro Q; inversion Q; reflexivity].
      + split; [constructor|reflexivity].
      + split; [discriminate|intro Q; inversion Q].
      + split; [discriminate|intro Q; inversion Q].
      + split; [constructor|reflexivity].
      + split; [intro Q; destruct l; [constructor|discriminate]|intro Q; inversion Q; reflexivity].
      + split; [constructor|reflexivity].
      + split; [intro Q; destruct m; [constructor|discriminate]|intro Q; inversion Q; reflexivity].
      + split; [discriminate|intro Q; inversion Q].
  Qed.
  Lemma ptr_compiles c : compilesA (APtr c) = true -> compilesA c = true.
  Proof. intro H. destruct c as [| | |c| | | | | | | | | |]; try discriminate H; [|exact H]. destruct c as [| | |c| | |[|]| | | | | | |]; try discriminate H; [|reflexivity]. destruct c as [| | |c| | |[|]| | | | | | |]; try discriminate H; [exact H|reflexivity]. Qed.
  Lemma runFields_good gen v : forall cs fs, coded E G gen cs fs -> compilesF fs = true ->
    (forall name params f, In (name, params, f) cs -> plain_name name /\ exists o, fieldByIndex v (mpath f) = Ok o /\
       forall x, o = Some x -> inside v x /\ typed E (mtype f) x /\ (~ left_out E G params (mtype f) x -> forall c b, gen (mtype f) (has rawParam params) = Ok (Some c) -> compilesA c = true -> good x b (writes_at (mtype f) x) (runA E c b x))) ->
    forall (more : bool) out, good v out (fun w => exists mjs ms, Forall2 (gmember wsOK strOK) mjs ms /\ shown_fields E G M v cs mjs /\ w = (if more then rest (map member ms) else x7b :: join x2c (map member ms)) ++ [x7d]) (runFields E fs more v out).
  Proof.
    induction 1 as [|name params f cs o c r Gc Ho C IH]; intros Cp H more out; cbn [runFields].
    - right. exists (closeObject more). split; [reflexivity|]. exists [], []. split; [constructor|]. split; [constructor|]. destruct more; reflexivity.
    - cbn [compilesF] in Cp. rewrite !andb_true_iff in Cp. destruct Cp as (((Gn & Cc) & _) & Cr). specialize (IH Cr ltac:(intros; apply H; right; assumption)).
      destruct (H name params f (or_introl eq_refl)) as (Pn & ox & Fx & Hx). pose proof (plain_chars _ Pn) as Rn. rewrite (plain_lit _ Pn), Fx. cbn [bind]. destruct ox as [x|].
      + destruct (Hx x eq_refl) as (Ix & Tx & Gx). pose proof (fieldByIndex_some _ _ _ Fx) as Rx. destruct (isNilPtr x) eqn:Nx.
        * destruct x as [| | | | | |[|]| | | | |]; try discriminate. destruct (IH more out) as [L|(w & -> & mjs & ms & F & Sf & ->)]; [left; exact L|]. right. eexists. split; [reflexivity|]. exists mjs, ms. split; auto. split; auto. eapply shf_out; [exact Rx|left; reflexivity|exact Sf].
        * assert (Np : x <> VPtr None) by (intros ->; discriminate).
          assert (exists b, match o with Some o => condHolds E o x | None => Ok true end = Ok b /\ (b = false <-> In omitEmpty params /\ vacant E G (mtype f) x)) as (b & Cb & Vb).
          { destruct (has omitEmpty params) eqn:Hp.
            - destruct (cond_vacant _ _ _ Tx Np Ho) as (b & Cb & Vb). exists b. split; auto. rewrite Vb. apply has_In in Hp. tauto.
            - injection Ho as <-. exists true. split; auto. split; [discriminate|]. intros (Q & _). apply has_In in Q. congruence. }
          rewrite Cb. cbn [bind]. destruct b; cbn [negb].
          -- assert (Nl : ~ left_out E G params (mtype f) x) by (intros [Q|Q]; [contradiction|apply Vb in Q; discriminate]).
             destruct (Gx Nl c (out ++ (if more then x2c else x7b) :: x22 :: name ++ [x22; x3a]) Gc Cc) as [(o' & e & -> & Me)|(w & -> & j & Jw & Sh)]; cbn [bind]; [left; exists o', e; split; auto; eapply error_inside; eassumption|].
             destruct (IH true ((out ++ (if more then x2c else x7b) :: x22 :: name ++ [x22; x3a]) ++ w)) as [L|(w' & -> & mjs & ms & F & Sf & ->)]; [left; exact L|]. right.
             eexists. split; [|exists ((name, j) :: mjs), ((name, w) :: ms); split; [constructor; [split; [reflexivity|split; assumption]|exact F]|split; [eapply shf_member; eassumption|reflexivity]]].
             cbn [map]. rewrite join_rest, rest_cons. unfold member. cbn [fst snd]. destruct more; rewrite <- ?app_assoc; cbn [app]; rewrite <- ?app_assoc; cbn [app]; rewrite <- ?app_assoc; reflexivity.
          -- destruct (IH more out) as [L|(w & -> & mjs & ms & F & Sf & ->)]; [left; exact L|]. right. eexists. split; [reflexivity|]. exists mjs, ms. split; auto. split; auto. eapply shf_out; [exact Rx|right; apply Vb; reflexivity|exact Sf].
      + destruct (IH more out) as [L|(w & -> & mjs & ms & F & Sf & ->)]; [left; exact L|]. right. eexists. split; [reflexivity|]. exists mjs, ms. split; auto. split; auto. apply shf_unreachable; auto. apply fieldByIndex_none. exact Fx.
  Qed.
  Lemma good_ok v out (Q : bytes -> Prop) w : Q w -> good v out Q (Ok (out ++ w, None)).
  Proof. intro H. right. eauto. Qed.
  Lemma good_imp v out (Q R : bytes -> Prop) r : good v out Q r -> (forall w, Q w -> R w) -> good v out R r.
  Proof. intros [H|(w & -> & H)] I; [left; exact H|right; eauto]. Qed.
  Lemma runA_good : forall fuel t raw c, typeAppender fuel E G M t raw = Ok (Some c) -> star (needs E G M) (t0, false) (t, raw) -> (forall p, star (needs E G M) (t, raw) p -> fit p) -> compilesA c = true ->
    forall v out, typed E t v -> okv t v -> good v out (writes_at t v) (runA E c out v).
  Proof.
    induction fuel as [|k IH]; intros t raw c H Rt Ft Cp v out Tv Ov; [discriminate|]. rewrite typeAppender_S in H. destruct (typeOf E t) as [T|] eqn:ET; [|discriminate].
    pose proof (Ft _ (star_here _ _)) as (Er & Mo & Nj). cbn [fst snd] in *. subst raw. destruct (Mo T ET) as (MA & MJ & MT). destruct MR as (RA & RJ & RT & _).
    destruct (marshals_cases (tmeth T)) as [Q|[(Q & Q')|[(Q & Q' & Q'')|Nm]]]; rewrite ?Q, ?Q', ?Q'' in H.
    - injection H as <-. cbn [runA]. destruct (RA t v out Tv) as ([o [e|]] & Ca); rewrite Ca.
      + left. exists o, e. split; auto. exists t, false, T, v. split; [exact Rt|]. split; [exact ET|]. split; [constructor|]. split; [exact Tv|]. split; [exact Ov|]. left. eauto.
      + destruct (MA Q _ _ _ Ov Ca) as (w & j & -> & Rj & Jw). right. exists w. split; auto. exists j. split; auto. eapply sh_append; eassumption.
    - injection H as <-. cbn [runA]. unfold encodeJSON. destruct (RJ t v Tv) as ([o [e|]] & Ca); rewrite Ca; cbn [bind].
      + left. exists out, e. split; [destruct o; reflexivity|]. exists t, false, T, v. split; [exact Rt|]. split; [exact ET|]. split; [constructor|]. split; [exact Tv|]. split; [exact Ov|]. right. left. eauto.
      + destruct (MJ Q Q' _ _ Ov Ca) as (w & j & -> & Rj & Jw). right. exists w. split; auto. exists j. split; auto. eapply sh_json; eassumption.
    - injection H as <-. cbn [runA]. unfold encodeText. destruct (RT t v Tv) as ([o [e|]] & Ca); rewrite Ca; cbn [bind].
      + left. exists out, e. split; auto. exists t, false, T, v. split; [exact Rt|]. split; [exact ET|]. split; [constructor|]. split; [exact Tv|]. split; [exact Ov|]. right. right. eauto 7.
      + right. exists (x22 :: o ++ [x22]). split; [unfold append1; rewrite <- !app_assoc; reflexivity|]. exists (JStr o). split; [apply v_str; eapply MT; eassumption|]. eapply sh_text; eassumption.
    - pose proof Nm as (Q & Q' & Q''). rewrite Q, Q', Q'' in H. pose proof (typeOf_kindOf _ _ _ ET) as K.
      assert (BK : written_kind E t (tkind T)) by (exists T; auto).
      assert (Kd : forall w, (exists j, J j w /\ shown_kind E G M t (tkind T) v j) -> writes_at t v w) by (intros w (j & Jw & Sh); exists j; split; auto; eapply sh_kind; eassumption).
      assert (Down : forall p, needs E G M (t, false) p -> forall q, star (needs E G M) p q -> fit q) by (intros p N q Sq; apply Ft; econstructor; eassumption).
      assert (Part : forall p, In p (parts (tkind T) false) -> needs E G M (t, false) p) by (intros p Ip; econstructor; eassumption).
      destruct (tkind T) as [| | | | | |[]|e|e| |kt e|fs|] eqn:Kt; try discriminate.
      + injection H as <-. inversion Tv; subst; try congruence; try (match goal with A : _ \/ _ |- _ => destruct A; congruence end). cbn [runA]. apply good_ok. apply Kd. destruct b; [exists JTrue|exists JFalse]; split; constructor.
      + injection H as <-. inversion Tv; subst; try congruence; try (match goal with A : _ \/ _ |- _ => destruct A; congruence end). cbn [runA]. apply good_ok. apply Kd. exists (JNum (FormatInt z)). split; [apply v_num; apply FormatInt_number|constructor].
      + injection H as <-. inversion Tv; subst; try congruence; try (match goal with A : _ \/ _ |- _ => destruct A; congruence end). cbn [runA]. apply good_ok. apply Kd. exists (JNum (FormatUint (Z.to_N z))). split; [apply v_num; apply FormatUint_number|constructor].
      + injection H as <-. inversion Tv; subst; try congruence; try (match goal with A : _ \/ _ |- _ => destruct A; congruence end). cbn [runA]. destruct (ok_float _ _ (or_introl BK) Ov) as (Cf & Ff).
        destruct (C38_dst_lem (ftoa E) out f f 64 S Cf (or_introl (conj eq_refl eq_refl)) Ff) as (s & Fs & As). destruct (C38_lem (ftoa E) out f f 64 S Cf (or_introl (conj eq_refl eq_refl)) Ff) as (q & q' & _ & Aq & _ & Rq & _).
        rewrite As in Aq. injection Aq as Aq. apply app_inv_head in Aq. subst s. rewrite As. cbn [bind]. apply good_ok. apply Kd. eexists. split; [apply v_num; exact Rq|]. econstructor; eauto.
      + injection H as <-. inversion Tv; subst; try congruence; try (match goal with A : _ \/ _ |- _ => destruct A; congruence end). cbn [runA]. destruct (ok_float _ _ (or_intror BK) Ov) as (Cf & Ff).
        destruct (C38_dst_lem (ftoa E) out f f 64 S Cf (or_introl (conj eq_refl eq_refl)) Ff) as (s & Fs & As). destruct (C38_lem (ftoa E) out f f 64 S Cf (or_introl (conj eq_refl eq_refl)) Ff) as (q & q' & _ & Aq & _ & Rq & _).
        rewrite As in Aq. injection Aq as Aq. apply app_inv_head in Aq. subst s. rewrite As. cbn [bind]. apply good_ok. apply Kd. eexists. split; [apply v_num; exact Rq|]. econstructor; eauto.
      + injection H as <-. inversion Tv; subst; try congruence; try (match goal with A : _ \/ _ |- _ => destruct A; congruence end). cbn [runA]. destruct (encodeString_spec false out s) as (w & -> & _ & Es). apply good_ok. apply Kd. exists (JStr w). split; [apply v_str; exact (ok_string _ _ _ BK Ov Es)|constructor; exact Es].
      + injection H as <-. discriminate Cp.
      + destruct (typeAppender k E G M e false) as [[c'|]| |] eqn:D; try discriminate. injection H as <-. assert (N : needs E G M (t, false) (e, false)) by (apply Part; left; reflexivity).
        assert (Cc : compilesA c' = true) by (apply ptr_compiles; exact Cp).
        inversion Tv; subst; try congruence; try (match goal with A : _ \/ _ |- _ => destruct A; congruence end); cbn [runA].
        * apply good_ok. apply Kd. exists JNull. split; constructor.
        * match goal with A : kindOf E t = Some (KPtr ?g) |- _ => assert (g = e) by congruence; subst g end. assert (Ix : inside (VPtr (Some x)) x) by (repeat constructor).
          destruct (IH e false c' D (gstar_snoc _ _ _ _ Rt N) (Down _ N) Cc x out ltac:(assumption) (ok_ptr _ _ _ BK Ov)) as [(o & er & -> & Me)|(w & -> & j & Jw & Sh)]; [left; exists o, er; split; auto; eapply error_inside; eassumption|].
          apply good_ok. apply Kd. exists j. split; auto. constructor. exact Sh.
      + destruct (typeAppender k E G M e false) as [[c'|]| |] eqn:D; try discriminate. injection H as <-. assert (N : needs E G M (t, false) (e, false)) by (apply Part; left; reflexivity).
        cbn [compilesA] in Cp. apply andb_true_iff in Cp as (Cc & _).
        inversion Tv; subst; try congruence; try (match goal with A : _ \/ _ |- _ => destruct A; congruence end); cbn [runA].
        * cbn [runElems]. replace (append1 (append1 out x5b) x5d) with (out ++ [x5b; x5d]) by (unfold append1; rewrite <- app_assoc; reflexivity). apply good_ok. apply Kd. exists (JArr []). split; [exact (v_arr0 wsOK strOK rfc_chars rfc_number [] W0)|constructor].
        * match goal with A : kindOf E t = Some (KSlice ?g) |- _ => assert (g = e) by congruence; subst g end.
          destruct (runElems_good (VSlice (Some (l, s))) e (runA E c') l true (append1 out x5b)) as [L|(w & -> & js & ws & F & Se & ->)]; [|left; exact L|].
          { intros x b Ix. assert (Iv : inside (VSlice (Some (l, s))) x) by (econstructor; [exact Ix|constructor]). split; auto. apply (IH e false c' D (gstar_snoc _ _ _ _ Rt N) (Down _ N) Cc); [|exact (ok_slice _ _ _ _ _ BK Ov Ix)]. match goal with A : Forall (typed E e) l |- _ => rewrite Forall_forall in A; auto end. }
          unfold append1. rewrite <- app_assoc. apply good_ok. apply Kd. exists (JArr js). split; [cbn [app sepd]; apply g_array; auto|]. constructor. exact Se.
      + destruct (typeAppender k E G M kt false) as [[c1|]| |] eqn:D1; try discriminate; destruct (typeAppender k E G M e false) as [[c'|]| |] eqn:D; try discriminate. injection H as <-.
        assert (N : needs E G M (t, false) (e, false)) by (apply Part; right; left; reflexivity). cbn [compilesA] in Cp. rewrite !andb_true_iff in Cp. destruct Cp as (((_ & _) & Cc) & _).
        assert (Rk : forall key b, (exists K, typeOf E kt = Some K /\ no_marshaler (tmeth K) /\ match tkind K with KBool | KInt _ | KUint _ => True | _ => False end) -> typed E kt key -> exists s, key_text key s /\ runA E c1 b key = Ok (b ++ s, None)).
        { intros key b (KT & EK & NK & Kk) Tk. destruct k as [|k]; [discriminate|]. rewrite typeAppender_S, EK in D1. destruct NK as (K1 & K2 & K3). rewrite K1, K2, K3 in D1. pose proof (typeOf_kindOf _ _ _ EK) as Kkt.
          destruct (tkind KT); try contradiction; injection D1 as <-; (inversion Tk; subst; try congruence; try (match goal with A : _ \/ _ |- _ => destruct A; congruence end)); cbn [runA]; [destruct b0|..]; eexists; (split; [constructor|reflexivity]). }
        assert (Fin : forall m, typed E t (VMap m) -> v = VMap m -> good v out (writes_at t v) (runA E (AMap c1 c') out v)).
        { intros m Tm ->. cbn [runA]. set (m0 := match m with Some m => m | None => [] end). assert (Perm : Permutation (mapOrder E out m0) m0) by apply WM.
          assert (Em : forall key x, In (key, x) m0 -> inside (VMap m) x /\ typed E kt key /\ typed E e x /\ okv e x /\ exists K, typeOf E kt = Some K /\ no_marshaler (tmeth K) /\ match tkind K with KBool | KInt _ | KUint _ => True | _ => False end).
          { intros key x Ix. destruct m as [m|]; [|destruct Ix]. split; [eapply ins_map; [exact Ix|constructor]|]. inversion Tm; subst; try congruence; try (match goal with A : _ \/ _ |- _ => destruct A; congruence end).
            match goal with A : kindOf E t = Some (KMap ?a ?b) |- _ => assert (a = kt /\ b = e) as (-> & ->) by (split; congruence) end. match goal with A : Forall _ m |- _ => rewrite Forall_forall in A; destruct (A _ Ix) as (A1 & A2) end. split; [exact A1|]. split; [exact A2|]. exact (ok_map _ _ _ _ _ _ BK Ov Ix). }
          destruct (runEntries_good (VMap m) e (runA E c1) (runA E c') (mapOrder E out m0) false out) as [L|(w & -> & mjs & ms & F & Se & ->)]; [|left; exact L|].
          { intros key x b Ix. apply (Permutation_in _ Perm) in Ix. destruct (Em _ _ Ix) as (Iv & Tk & Tx & Ox & Kk). split; auto. split; auto. apply (IH e false c' D (gstar_snoc _ _ _ _ Rt N) (Down _ N) Cc); auto. }
          apply good_ok. apply Kd. exists (JObj mjs). split; [apply g_object; auto|]. destruct m as [m|]; cbn in m0; [econstructor; eassumption|].
          subst m0. apply Permutation_sym, Permutation_nil in Perm. rewrite Perm in Se. inversion Se; subst. constructor. }
        inversion Tv; subst; try congruence; try (match goal with A : _ \/ _ |- _ => destruct A; congruence end); eapply Fin; eauto.
      + destruct (appendFields (typeAppender k E G M) E G (chosen G [] (sortTags (fieldsOf M t)))) as [[r|]| |] eqn:A; try discriminate. injection H as <-. cbn [compilesA] in Cp. apply appendFields_coded in A.
        inversion Tv; subst; try congruence; try (match goal with A : _ \/ _ |- _ => destruct A; congruence end). cbn [runA].
        destruct (runFields_good (typeAppender k E G M) (VStruct l) _ _ A Cp) with (more := false) (out := out) as [L|(w & -> & mjs & ms & F & Sf & ->)]; [|left; exact L|].
        { intros name params f If. apply chosen_order in If. split; [exact (Nj _ _ _ _ K If)|]. destruct (P t fs f K (leads_In G _ _ _ _ If)) as (Wk & _). destruct (field_typed _ _ _ _ Wk _ Tv) as (o & Fo & Ho). exists o. split; auto.
          intros x ->. destruct Ho as (Tx & Ix & _). split; auto. split; auto. intros Nl c b Gc Cc. assert (N : needs E G M (t, false) (mtype f, has rawParam params)) by (econstructor; eassumption).
          apply (IH _ _ _ Gc (gstar_snoc _ _ _ _ Rt N) (Down _ N) Cc); auto. exact (ok_field _ _ _ _ _ _ _ BK Tv Ov If (fieldByIndex_some _ _ _ Fo) Nl). }
        apply good_ok. apply Kd. exists (JObj mjs). split; [apply g_object; auto|]. econstructor; [apply chosen_order|exact Sf].
  Qed.
End Write.

Lemma run_by_kind E G M t c out v : Appender E G M t = Ok (Some c) -> (forall T, typeOf E t = Some T -> isAppender (tmeth T) = false) -> runAppender E c out (Some v) = runA E c out v.
Proof.
  intros H NA. destruct c; try reflexivity. exfalso. unfold Appender in H. rewrite typeAppender_S in H. destruct (typeOf E t) as [T|]; [|discriminate]. rewrite (NA T eq_refl) in H.
    destruct (isJSON (tmeth T)); [discriminate|]. destruct (isText (tmeth T)); [discriminate|].
    destruct (tkind T) as [| | | | | |[]|e|e| |kt e|fs|]; try discriminate.
    - destruct (typeAppender (length (types E)) E G M e false) as [[?|]| |]; discriminate.
    - destruct (typeAppender (length (types E)) E G M e false) as [[?|]| |]; discriminate.
    - destruct (typeAppender (length (types E)) E G M kt false) as [[?|]| |]; try discriminate. all: destruct (typeAppender (length (types E)) E G M e false) as [[?|]| |]; discriminate.
    - destruct (appendFields (typeAppender (length (types E)) E G M) E G (chosen G [] (sortTags (fieldsOf M t)))) as [[?|]| |]; discriminate.
Qed.
Lemma C61_lem E G M t c v out : wf_types E -> paths_ok E M -> ftoa_spec (ftoa E) -> walks_maps E -> methods_return E -> methods_write_json E ->
  names_json E G M t -> plain_keys E G M t -> typed E t v -> finite_floats v -> Appender E G M t = Ok (Some c) -> compilesAppender M t c = true ->
  (forall T, typeOf E t = Some T -> isAppender (tmeth T) = false) ->
  (exists out' e, runAppender E c out (Some v) = Ok (out', Some e) /\ method_error E G M t v e) \/
  exists w j, runAppender E c out (Some v) = Ok (out ++ w, None) /\ rfc_value j w /\ shown E G M t v j.
Proof.
  intros W P S WM MR (MA & MJ & MT) NJ PK Tv Fv H Cp NA. unfold compilesAppender in Cp. apply andb_true_iff in Cp as (_ & Cp). assert (Ca : compilesA c = true) by (destruct c; try discriminate; auto).
  rewrite (run_by_kind _ _ _ _ _ _ _ H NA).
  destruct (runA_good E G M P S WM MR ws rfc_chars ws_nil t (fun u v => finite_floats v /\ (exists raw, star (needs E G M) (t, false) (u, raw)))) with (fuel := Datatypes.S (length (types E))) (t := t) (raw := false) (c := c) (v := v) (out := out) as [(o & er & Ra & u & raw & X & x & Me)|(w & R & j & Jw & Sh)]; auto.
  - intros _ f _ (F & _). exact (F f (ins_here _)).
  - intros _ s w _ _ Es. destruct (encodeString_spec false [] s) as (w' & _ & R & Es'). congruence.
  - intros u e x (X & EX & Nm & KX) (F & raw & Su). split; [eapply finite_inside; [exact F|]; repeat constructor|]. exists raw. eapply gstar_snoc; [exact Su|]. eapply nd_part; [exact EX|exact Nm|]. rewrite KX. left. reflexivity.
  - intros u e l s x (X & EX & Nm & KX) (F & raw & Su) Ix. split; [eapply finite_inside; [exact F|]; econstructor; [exact Ix|constructor]|]. exists raw. eapply gstar_snoc; [exact Su|]. eapply nd_part; [exact EX|exact Nm|]. rewrite KX. left. reflexivity.
  - intros u k e m key x (X & EX & Nm & KX) (F & raw & Su) Ix. split.
    + split; [eapply finite_inside; [exact F|]; econstructor; [exact Ix|constructor]|]. exists raw. eapply gstar_snoc; [exact Su|]. eapply nd_part; [exact EX|exact Nm|]. rewrite KX. right. left. reflexivity.
    + apply (PK u raw k e Su). rewrite (typeOf_kindOf _ _ _ EX), KX. reflexivity.
  - intros u fs l name params f x (X & EX & Nm & KX) Tl (F & raw & Su) L Rx _. pose proof (typeOf_kindOf _ _ _ EX) as K. rewrite KX in K. destruct (P u fs f K (leads_In G _ _ _ _ L)) as (Wk & _). destruct (field_typed _ _ _ _ Wk _ Tl) as (o & Fo & Ho). assert (o = Some x) as ->.
    { destruct o as [y|]; [f_equal; exact (reaches_det _ _ _ _ _ Fo (fieldByIndex_some _ _ _ Fo) Rx)|destruct (fieldByIndex_none _ _ Fo _ Rx)]. }
    destruct Ho as (_ & Ix & _). split; [eapply finite_inside; eassumption|]. eexists. eapply gstar_snoc; [exact Su|]. eapply nd_field; eassumption.
  - constructor.
  - intros [u raw] Su. destruct (NJ u raw Su) as (-> & Nm). split; [reflexivity|]. split; [|exact Nm].
    intros T ET. split; [|split]; [intros _ x b o _ Q; destruct (MA _ _ _ _ Q) as (w & j & Eo & R); eauto|intros _ _ x r _ Q; destruct (MJ _ _ _ Q) as (w & j & Eo & R); eauto|intros _ _ _ x w _; exact (MT u x w)].
  - split; auto. exists false. constructor.
  - left. exists o, er. split; [exact Ra|]. exists u, raw, X, x. tauto.
  - right. exists w, j. auto.
Qed.
Lemma C61_nil_lem E c out : runAppender E c out None = Ok (out ++ str "null", None).
Proof. reflexivity. Qed.
