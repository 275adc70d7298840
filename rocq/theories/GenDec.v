(* Proofs for C62: what the generated UnmarshalNodeJSON methods do. *)
From Verif Require Import FloatSpec NumSpec FmtSpec StrSpec Bytes Types JsonSpec Parser Doc DocSpec DocProofs Strjson StrThms Float Num Iface IfaceSpec IfaceThms Wrap WrapThms DocStr Options Codec CodecSpec CodecMerge CodecBase DecodeSpec DecodeTree DecodeThms Gen GenSpec GenMake GenMakeU.
Local Open Scope nat_scope.

Lemma raw_of w n j : tree_of w n j -> Node_Raw w n = raw_text j.
Proof.
  intro T. destruct (tree_get w n _ T) as (r & d & x & _ & _ & G & G' & D). unfold Node_Raw. rewrite G.
  inversion D as [i x' E|i x' E|i x' E|i x' E|i x' E|i x' vs E|i x' ms E]; subst; rewrite G' in E; injection E as <-; auto.
Qed.
Lemma num_of w n j : tree_of w n j -> Node_ToInt w n = ParseInt (raw_text j) /\ Node_ToUint w n = ParseUint (raw_text j) /\
  Node_ToFloat w n = (ParseFloat (raw_text j), feq (ParseFloat (raw_text j)) (ParseFloat (raw_text j))).
Proof.
  intro T. rewrite <- (raw_of w n j T). destruct (tree_get w n _ T) as (r & d & x & _ & _ & G & _). unfold Node_Raw, Node_ToInt, Node_ToUint, Node_ToFloat, ParseInt, ParseUint. rewrite G. auto.
Qed.
Lemma unesc_of w n j : tree_of w n j -> Node_Unescaped w n = match j with JStr s => Unescaped s | _ => Ok [] end.
Proof.
  intro T. destruct (tree_get w n _ T) as (r & d & x & _ & _ & G & G' & D). unfold Node_Unescaped, info_IsString. rewrite G.
  inversion D as [i x' E|i x' E|i x' E|i x' E|i x' E|i x' vs E|i x' ms E]; subst; rewrite G' in E; injection E as <-; match goal with H : info_Type _ = _ |- _ => rewrite H end; reflexivity.
Qed.
Lemma type_err w n j want : tree_of w n j -> typeError w n want = Some (complaint j want).
Proof. intro T. unfold typeError, Node_TypeError. rewrite (proj1 (tree_look w n j T)). destruct j; reflexivity. Qed.
Lemma digits_cases j : (exists s, digits_of j s /\ raw_text j = s) \/ (match j with JNum _ | JStr _ => False | _ => True end /\ ParseFloat (raw_text j) = FNaN).
Proof. destruct j as [s|s| | | |js|ms]; [left; exists s; split; [right|]; reflexivity|left; exists s; split; [left|]; reflexivity|..]; right; (split; [exact Logic.I|vm_compute; reflexivity]). Qed.
Lemma intOk_nan : intOk FNaN = false. Proof. vm_compute. reflexivity. Qed.
Lemma uintOk_nan : uintOk FNaN = false. Proof. vm_compute. reflexivity. Qed.
Lemma string_typed E s : typed E tString (VString s). Proof. constructor. reflexivity. Qed.
Lemma tString_inv E x : typed E tString x -> exists s, x = VString s.
Proof. inversion 1; subst; eauto; try discriminate. destruct H0; discriminate. Qed.

Lemma isKey_iff k s x : isKey k s x = true <-> x = boxKey k s.
Proof.
  assert (B : forall a, bseqb a s = true <-> a = s) by (intro a; split; [apply bseqb_true|intros ->; apply bseqb_refl]).
  destruct k; cbn [isKey boxKey]; destruct x as [| | | |s'|[[d x]|]| | | | | |]; try (split; discriminate); try (rewrite B; split; [intros ->; reflexivity|injection 1; auto]).
  destruct x; try (split; discriminate). rewrite andb_true_iff, B, Nat.eqb_eq. split; [intros (-> & ->); reflexivity|intro H; injection H; auto].
Qed.
Lemma setAt_good k s y : forall m, NoDup (map fst m) -> put_at m (boxKey k s) y (setAt k s y m) /\ NoDup (map fst (setAt k s y m)) /\ (forall p, In p (setAt k s y m) -> p = (boxKey k s, y) \/ In p m).
Proof.
  induction m as [|[k' x] m IH]; intro N; cbn [setAt].
  - split; [apply (pa_new [])|]; [intros []|]. split; [repeat constructor; intros []|]. intros p [<-|[]]. auto.
  - cbn [map fst] in N. apply NoDup_cons_iff in N as (N1 & N2). destruct (isKey k s k') eqn:Ik.
    + apply isKey_iff in Ik. subst k'. split; [apply (pa_old [])|]. split; [constructor; assumption|]. intros p [<-|I]; [auto|right; right; exact I].
    + assert (Nk : k' <> boxKey k s) by (intro Q; apply isKey_iff in Q; congruence). destruct (IH N2) as (A & B & C). split; [|split].
      * inversion A as [a k0 x' b y0 Q1 Q2 Q3 Q4|m0 k0 y0 Ni Q1 Q2 Q3 Q4]; [apply (pa_old ((k', x) :: a))|]. apply (pa_new ((k', x) :: m)). cbn [map fst]. intros [Q|I]; contradiction.
      * cbn [map fst]. constructor; [|exact B]. rewrite in_map_iff. intros (p & Q & I). destruct (C p I) as [->|I']; [cbn in Q; congruence|]. apply N1. rewrite <- Q. apply in_map. exact I'.
      * intros p [<-|I]; [right; left; reflexivity|]. destruct (C p I); [auto|right; right; assumption].
Qed.
Lemma keyOf_box E k : match keyOf E k with MOther => false | _ => true end = true -> key_box E k (boxKey (keyOf E k)) /\ forall s, typed E k (boxKey (keyOf E k) s).
Proof.
  intro H. unfold keyOf in *. destruct (Nat.eqb_spec k tString) as [Ek|Ne]; [subst k; split; [left; split; reflexivity|intro s; apply string_typed]|].
  destruct (typeOf E k) as [T|] eqn:ET; [|discriminate]. pose proof (typeOf_kindOf _ _ _ ET) as K. destruct (tkind T) as [| | | | | |[]| | | | | |]; try discriminate. split; [right; split; [exact K|reflexivity]|].
  intro s. eapply t_iface; [exact K| |apply string_typed]. intros m' Q. discriminate.
Qed.

Lemma ensureAt_lay E t p u : wf_types E -> walks E t p u -> forall v, typed E t v ->
  exists x (ctx : gv -> gv), typed E u x /\ (forall y, lay E t v p x y (ctx y)) /\ (forall y, typed E u y -> typed E t (ctx y)) /\
    forall f, ensureAt E p t v f = (let! y := f x in Ok (ctx (fst y), snd y)).
Proof.
  intro W. induction 1 as [t|t fs i f path u K N Wk IH|t e path u K Wk IH]; intros v T.
  - exists v, (fun y => y). split; auto. split; [constructor|]. split; auto. intro g. cbn [ensureAt]. destruct (g v) as [[]| |]; reflexivity.
  - inv_typed T. match goal with A : kindOf E t = Some (KStruct ?g) |- _ => assert (g = fs) by congruence; subst g end.
    destruct (Forall2_nth _ _ _ H0 _ _ N) as (x & Nx & Tx). destruct (nth_error_split _ _ Nx) as (a & b & -> & La). subst i.
    destruct (IH x Tx) as (x0 & ctx & T0 & Pu & Tc & At). exists x0, (fun y => VStruct (a ++ ctx y :: b)). split; auto. split; [intro y; econstructor; eauto|]. split.
    + intros y Ty. eapply t_struct; [exact K|]. apply Forall2_app_inv_r in H0 as (fa & fb & Fa & Fb & ->). inversion Fb as [|g ? gs ? Hg Hgs]; subst. apply Forall2_app; auto. constructor; auto.
      pose proof (Forall2_length _ _ _ Fa) as La. rewrite nth_error_app2, La, Nat.sub_diag in N by lia. cbn in N. injection N as ->. auto.
    + intro g. cbn [ensureAt]. replace (Z.of_nat (length a) =? -1)%Z with false by (symmetry; apply Z.eqb_neq; lia). unfold fieldType. destruct (kindOf_typeOf _ _ _ K) as (X & Ty & Ek). rewrite Ty, Ek, Nat2Z.id, N.
      cbn [option_map]. rewrite fieldAt_nat, Nx, At. destruct (g x0) as [[]| |]; cbn [bind fst snd]; auto. rewrite replaceNth_app. reflexivity.
  - pose proof W as (Mt & _). assert (Le : e < length (types E)) by (eapply Mt; [exact K|left; reflexivity]). destruct (zero_good E e W Le) as [Bz Tz].
    assert (Q : exists x, v = VPtr x /\ typed E e (match x with Some x => x | None => zero E e end)).
    { inv_typed T; eexists; (split; [reflexivity|]); [exact Tz|]. match goal with A : kindOf E t = Some (KPtr ?g) |- _ => assert (g = e) by congruence; subst g end. assumption. }
    destruct Q as (x & -> & Tx). destruct (IH _ Tx) as (x0 & ctx & T0 & Pu & Tc & At). exists x0, (fun y => VPtr (Some (ctx y))). split; auto. split; [|split].
    + intro y. destruct x as [x|]; [eapply lay_ptr; eauto|eapply lay_new; eauto].
    + intros y Ty. eapply t_ptr; eauto.
    + intro g. cbn [ensureAt]. change ((-1 =? -1)%Z) with true. cbv iota. unfold elemType. destruct (kindOf_typeOf _ _ _ K) as (X & Ty & Ek). rewrite Ty, Ek. rewrite At. destruct (g x0) as [[]| |]; reflexivity.
Qed.
Lemma gslots_lem E e x n : wf_types E -> e < length (types E) -> forall l s,
  (match x with None => (repeat (zero E e) n, []) | Some (l, s) => if (length (l ++ s) <? n)%nat then (repeat (zero E e) (length l + n), []) else (firstn n (l ++ s), skipn n (l ++ s)) end) = (l, s) ->
  gslots E e x n l s /\ n <= length l /\ (match x with Some (l0, s0) => Forall (typed E e) (l0 ++ s0) | None => True end -> Forall (typed E e) l /\ Forall (typed E e) s).
Proof.
  intros W L l s. destruct (zero_good E e W L) as [Bz Tz].
  assert (Rp : forall n (P : gv -> Prop), P (zero E e) -> Forall P (repeat (zero E e) n)) by (intros m P Pz; apply Forall_forall; intros y Iy; apply repeat_spec in Iy; subst; auto).
  destruct x as [[l0 s0]|]; [|injection 1 as <- <-; unfold gslots; rewrite repeat_length; auto].
  destruct (length (l0 ++ s0) <? n) eqn:Lt; injection 1 as <- <-; unfold gslots.
  - apply Nat.ltb_lt in Lt. rewrite repeat_length. split; [right; auto|]. split; [lia|auto].
  - apply Nat.ltb_ge in Lt. rewrite firstn_length. split; [left; split; [exact Lt|split; [lia|apply firstn_skipn]]|]. split; [lia|]. intro F. rewrite <- (firstn_skipn n (l0 ++ s0)) in F. apply Forall_app in F. exact F.
Qed.

Section Run.
  Variables (E : env) (G : gopts) (M : genv) (w : world).
  Hypothesis W : wf_types E.
  Hypothesis P : paths_ok E M.
  Hypothesis NP : no_point_loop E.
  Hypothesis UR : unmarshalers_return E M.
  Definition ends (t : tid) (v : gv) (j : jval) (r : res (gv * option uerr)) : Prop :=
    exists v' err, r = Ok (v', err) /\ typed E t v' /\ match err with None => filled E G M t v j v' | Some e => refused E G M t j e end.
  Lemma runSlots_ends run n e : forall vs js, elem_trees w n vs js -> (forall x n' j, In j js -> typed E e x -> tree_of w n' j -> ends e x j (run x n')) ->
    forall l, length vs <= length l -> Forall (typed E e) l ->
    exists l' err, runSlots run n vs l = Ok (l', err) /\ Forall (typed E e) l' /\ length l' = length l /\
      match err with None => exists m, l' = m ++ skipn (length vs) l /\ filled_each E G M e (firstn (length vs) l) js m | Some er => exists j, In j js /\ refused E G M e j er end.
  Proof.
    induction 1 as [|x j vs js Tx F IH]; intros Hd l L Fl; cbn [runSlots].
    - exists l, None. split; [destruct l; reflexivity|]. split; auto. split; auto. exists []. split; [reflexivity|constructor].
    - destruct l as [|y l]; [cbn in L; lia|]. apply Forall_cons_iff in Fl as [Ty Fl]. cbn in L. destruct (Hd y _ j (or_introl eq_refl) Ty Tx) as (y' & err & -> & Ty' & Q). cbn [bind]. destruct err as [er|].
      + exists (y' :: l), (Some er). split; auto. split; [constructor; auto|]. split; [reflexivity|]. exists j. split; [left; reflexivity|exact Q].
      + destruct (IH ltac:(intros; eapply Hd; eauto; right; assumption) l ltac:(lia) Fl) as (l' & err & -> & Fl' & Ll & R). cbn [bind fst snd]. exists (y' :: l'), err. split; auto. split; [constructor; auto|]. split; [cbn; congruence|].
        destruct err as [er|]; [destruct R as (j' & I & R); exists j'; split; [right; exact I|exact R]|]. destruct R as (m & -> & R). exists (y' :: m). split; [reflexivity|]. cbn [length firstn]. constructor; auto.
  Qed.
  Lemma runKeys_ends run n kt mk e : e < length (types E) -> (forall s, typed E kt (boxKey mk s)) -> forall vs ms, member_trees w n vs ms -> (forall x n' k j, In (k, j) ms -> typed E e x -> tree_of w n' j -> ends e x j (run x n')) ->
    forall m, Forall (fun p => typed E kt (fst p) /\ typed E e (snd p)) m -> NoDup (map fst m) ->
    exists m' err, runKeys run mk (zero E e) n vs m = Ok (m', err) /\ Forall (fun p => typed E kt (fst p) /\ typed E e (snd p)) m' /\ NoDup (map fst m') /\
      match err with None => filled_keys E G M e (boxKey mk) ms m m' | Some er => exists k j, In (k, j) ms /\ refused E G M e j er end.
  Proof.
    intros Le Tb. destruct (zero_good E e W Le) as [Bz Tz]. induction 1 as [|x [k j] vs ms (Kx & Tx) F IH]; intros Hd m Fm Nm; cbn [runKeys].
    - exists m, None. repeat (split; auto). constructor.
    - cbn [fst snd] in *. destruct (Hd (zero E e) _ k j (or_introl eq_refl) Tz Tx) as (y & err & -> & Ty & Q). cbn [bind]. destruct err as [er|].
      + exists m, (Some er). repeat (split; auto). exists k, j. split; [left; reflexivity|exact Q].
      + rewrite Kx. destruct (setAt_good mk k y m Nm) as (Pa & N1 & I1). assert (F1 : Forall (fun p => typed E kt (fst p) /\ typed E e (snd p)) (setAt mk k y m)).
        { rewrite Forall_forall in *. intros p Ip. destruct (I1 p Ip) as [->|Im]; [split; [apply Tb|exact Ty]|exact (Fm p Im)]. }
        destruct (IH ltac:(intros; eapply Hd; eauto; right; eassumption) _ F1 N1) as (m' & err & -> & F' & N' & R). exists m', err. repeat (split; auto). destruct err as [er|].
        * destruct R as (k' & j' & I & R). exists k', j'. split; [right; exact I|exact R].
        * eapply fk_cons; eauto.
  Qed.
  Lemma run_case gen t : forall cs fs, ucoded gen E cs fs -> compilesUF fs = true -> forall key,
    match runCase E M w fs t key with
    | None => forall params f, ~ In (key, params, f) cs
    | Some d => exists params f c, In (key, params, f) cs /\ fieldCode gen E params (mtype f) = Ok (Some c) /\ compilesU c = true /\ d = fun v n => ensureAt E (mpath f) t v (fun x => runU E M w c x n)
    end.
  Proof.
    induction 1 as [|name params f cs c r Fc Cs IH]; intros Cp key; cbn [runCase]; [intros ? ? []|]. cbn [compilesUF] in Cp. rewrite !andb_true_iff in Cp. destruct Cp as (((_ & Cc) & _) & Cr).
    destruct (bseqb name key) eqn:Ek.
    - apply bseqb_true in Ek. subst name. exists params, f, c. split; [left; reflexivity|auto].
    - specialize (IH Cr key). destruct (runCase E M w r t key) as [d|].
      + destruct IH as (p & g & c' & I & Q). exists p, g, c'. split; [right; exact I|exact Q].
      + intros p g [Q|I]; [injection Q as -> -> ->; rewrite bseqb_refl in Ek; discriminate|exact (IH p g I)].
  Qed.
  Lemma runMembers_ends t fs0 n (cases : bytes -> option decodes) : kindOf E t = Some (KStruct fs0) -> forall vs ms, member_trees w n vs ms ->
    (forall key, match cases key with
     | None => forall params f, ~ heads E G (fieldsOf M t) key params f
     | Some d => exists params f run, heads E G (fieldsOf M t) key params f /\ d = (fun v n => ensureAt E (mpath f) t v (fun x => run x n)) /\ walks E t (mpath f) (mtype f) /\
         ((raw_string E params (mtype f) /\ forall j x n', tree_of w n' j -> typed E (mtype f) x -> run x n' = Ok (VString (raw_text j), None)) \/
          (~ raw_string E params (mtype f) /\ forall j x n', tree_of w n' j -> typed E (mtype f) x -> ends (mtype f) x j (run x n')))
     end) -> forall v, typed E t v ->
    exists v' err, runMembers cases n vs v = Ok (v', err) /\ typed E t v' /\
      match err with
      | None => filled_fields E G M t ms v v'
      | Some er => exists name params f j, In (name, j) ms /\ heads E G (fieldsOf M t) name params f /\ ~ raw_string E params (mtype f) /\ refused E G M (mtype f) j er
      end.
  Proof.
    intro K. induction 1 as [|x [k j] vs ms (Kx & Tx) F IH]; intros Hc v Tv; cbn [runMembers].
    - exists v, None. repeat (split; auto). constructor.
    - cbn [fst snd] in *. rewrite Kx. pose proof (Hc k) as Hk. destruct (cases k) as [d|].
      2:{ destruct (IH Hc v Tv) as (v' & err & -> & T' & R). exists v', err. repeat (split; auto). destruct err as [er|]; [destruct R as (name & p & f & j' & I & R); exists name, p, f, j'; split; [right; exact I|exact R]|]. apply ff_other; auto. }
      destruct Hk as (params & f & run & Hf & -> & Wk & Hr). destruct (ensureAt_lay E t _ _ W Wk v Tv) as (x0 & ctx & T0 & Ly & Tc & At). rewrite At. destruct Hr as [(Rs & Hr)|(Rs & Hr)].
      + rewrite (Hr j _ _ Tx T0). cbn [bind fst snd].
        destruct (IH Hc (ctx (VString (raw_text j)))) as (v' & err & -> & T' & R); [apply Tc; constructor; apply Rs|]. exists v', err. repeat (split; auto).
        destruct err as [er|]; [destruct R as (name & p & g & j' & I & R); exists name, p, g, j'; split; [right; exact I|exact R]|]. eapply ff_raw; eauto.
      + destruct (Hr j _ _ Tx T0) as (y & err & -> & Ty & R). cbn [bind fst snd]. destruct err as [er|].
        * exists (ctx y), (Some er). split; auto. split; auto. exists k, params, f, j. split; [left; reflexivity|auto].
        * destruct (IH Hc (ctx y) (Tc y Ty)) as (v' & err & -> & T' & R'). exists v', err. repeat (split; auto).
          destruct err as [er|]; [destruct R' as (name & p & g & j' & I & R'); exists name, p, g, j'; split; [right; exact I|exact R']|]. eapply ff_field; eauto.
  Qed.
  Ltac kind_is K := match goal with A : kindOf E ?t = Some ?g |- _ => lazymatch g with context [_] => assert (Ek : Some g = kindOf E t) by (symmetry; exact A); rewrite K in Ek; injection Ek as ? end; subst end.
  Lemma runU_ends : forall fuel t c, typeUnmarshaler fuel E G M t = Ok (Some c) -> compilesU c = true -> forall v n j, typed E t v -> tree_of w n j -> ends t v j (runU E M w c v n).
  Proof.
    induction fuel as [|k IH]; intros t c H Cp v n j Tv Tj; [discriminate|]. pose proof H as H0. rewrite typeUnmarshaler_S in H by auto. destruct (typeOf E t) as [T|] eqn:ET; [|discriminate].
    pose proof (typeOf_kindOf _ _ _ ET) as K. destruct UR as (UJ & UT & UP).
    destruct (isTime M t) eqn:It. { injection H as <-. cbn [runU]. rewrite (raw_of _ _ _ Tj). destruct (parseTime M (raw_text j)) as [x|e] eqn:Pt; eexists _, _; (split; [reflexivity|]); (split; [eauto|]); cbn beta iota; [apply fi_time|apply rf_time]; auto. }
    destruct (isDuration M t) eqn:Id. { injection H as <-. discriminate. }
    destruct (isNodeU (tptr T)) eqn:I1. { injection H as <-. discriminate. }
    destruct (isJSONU (tptr T)) eqn:I2.
    { injection H as <-. cbn [runU]. rewrite (wrap_json _ _ _ Tj). cbn [bind wrapped]. destruct (UJ t v (print j) Tv) as (v' & e & C & T'). rewrite C. exists v', e. split; auto. split; auto. assert (B : by_json E M t) by (exists T; auto). destruct e; [exact (rf_json _ _ _ _ _ _ _ _ B Tv C)|eapply fi_json; eauto]. }
    destruct (isTextU (tptr T)) eqn:I3.
    { injection H as <-. cbn [runU]. assert (B : by_text E M t) by (exists T; repeat (split; auto)). assert (D : (exists s, j = JStr s) \/ forall s, j <> JStr s) by (destruct j; eauto; right; discriminate). destruct D as [(s & ->)|D].
      - rewrite (wrap_text _ _ _ Tj). cbn [wrapped]. destruct (UT t v s Tv) as (v' & e & C & T'). rewrite C. exists v', e. split; auto. split; auto. destruct e; [eapply rf_text; [| exact Tv|exact C]; auto|eapply fi_text; eauto].
      - destruct (wrap_text_other _ _ _ Tj D) as (ty & -> & -> & _). cbn [wrapped]. exists v, (Some (complaint j TypeString)). split; [|split; [auto|apply rf_text_type; auto]].
        rewrite (proj1 (tree_look _ _ _ Tj)). destruct j; reflexivity. }
    assert (B : by_kind_u M t T) by (repeat split; auto). assert (OK : of_kind E M t (tkind T)) by (exists T; auto). destruct (tree_look _ _ _ Tj) as (Lt & Lj & Lb). destruct (num_of _ _ _ Tj) as (Li & Lu & Lf).
    assert (Bad : forall want, want = wanted (tkind T) -> ~ takes_u (tkind T) j -> ends t v j (Ok (v, typeError w n want))).
    { intros want -> Nt. rewrite (type_err _ _ _ _ Tj). exists v, (Some (complaint j (wanted (tkind T)))). split; auto. split; auto. apply rf_kind; auto. }
    pose proof W as (Mt & _).
    destruct (tkind T) as [|bits|bits| | | |[]|e|e|? ?|kt e|fs|] eqn:Kt; try discriminate.
    - (* bool *) injection H as <-. inv_typed Tv. cbn [runU]. rewrite Lb. destruct j; try (apply Bad; [reflexivity|exact (fun X => X)]); eexists _, None; (split; [reflexivity|split; [constructor; exact K|]]); [apply fi_true|apply fi_false]; auto.
    - (* int *) injection H as <-. inv_typed Tv. cbn [runU]. rewrite Li. unfold ParseInt. destruct (digits_cases j) as [(s & Dg & Er)|(Nn & Er)]; rewrite Er.
      + destruct (intOk (ParseFloat s)) eqn:Ok1.
        * destruct (setInt_range bits (toInt64 (ParseFloat s)) ltac:(destruct (bits_pos E t bits W (or_introl K)); lia)) as (q & Es & R). rewrite Es. eexists _, None. split; [reflexivity|]. split; [exact (t_int _ _ _ _ K R)|]. eapply fi_int; eauto. unfold ParseInt. rewrite Ok1. reflexivity.
        * rewrite (type_err _ _ _ _ Tj). eexists _, (Some _). split; [reflexivity|]. split; auto. eapply rf_int; eauto.
      + rewrite intOk_nan. apply Bad; [reflexivity|]. destruct j; try contradiction; exact (fun X => X).
    - (* uint *) injection H as <-. inv_typed Tv. cbn [runU]. rewrite Lu. unfold ParseUint. destruct (digits_cases j) as [(s & Dg & Er)|(Nn & Er)]; rewrite Er.
      + destruct (uintOk (ParseFloat s)) eqn:Ok1.
        * destruct (setUint_range bits (toUint64 (ParseFloat s)) ltac:(destruct (bits_pos E t bits W (or_intror K)); lia)) as (q & Es & R). rewrite Es. eexists _, None. split; [reflexivity|]. split; [exact (t_uint _ _ _ _ K R)|]. eapply fi_uint; eauto. unfold ParseUint. rewrite Ok1. reflexivity.
        * rewrite (type_err _ _ _ _ Tj). eexists _, (Some _). split; [reflexivity|]. split; auto. eapply rf_uint; eauto.
      + rewrite uintOk_nan. apply Bad; [reflexivity|]. destruct j; try contradiction; exact (fun X => X).
    - (* float32 *) injection H as <-. inv_typed Tv. cbn [runU]. rewrite Lf. destruct (digits_cases j) as [(s & Dg & Er)|(Nn & Er)]; rewrite Er.
      + destruct (feq (ParseFloat s) (ParseFloat s)) eqn:Ok1.
        * apply feq_self in Ok1. eexists _, None. split; [reflexivity|]. split; [apply t_float; auto|]. eapply fi_float32; eauto.
        * rewrite (type_err _ _ _ _ Tj). eexists _, (Some _). split; [reflexivity|]. split; auto. eapply rf_float; eauto. destruct (ParseFloat s) eqn:Pf; auto; exfalso; rewrite <- Pf in Ok1; assert (ParseFloat s <> FNaN) as Q by congruence; apply feq_self in Q; congruence.
      + apply Bad; [reflexivity|]. destruct j; try contradiction; exact (fun X => X).
    - (* float64 *) injection H as <-. inv_typed Tv. cbn [runU]. rewrite Lf. destruct (digits_cases j) as [(s & Dg & Er)|(Nn & Er)]; rewrite Er.
      + destruct (feq (ParseFloat s) (ParseFloat s)) eqn:Ok1.
        * apply feq_self in Ok1. eexists _, None. split; [reflexivity|]. split; [apply t_float; auto|]. eapply fi_float64; eauto.
        * rewrite (type_err _ _ _ _ Tj). eexists _, (Some _). split; [reflexivity|]. split; auto. eapply rf_float; eauto. destruct (ParseFloat s) eqn:Pf; auto; exfalso; rewrite <- Pf in Ok1; assert (ParseFloat s <> FNaN) as Q by congruence; apply feq_self in Q; congruence.
      + apply Bad; [reflexivity|]. destruct j; try contradiction; exact (fun X => X).
    - (* string *) injection H as <-. inv_typed Tv. cbn [runU]. rewrite (unesc_of _ _ _ Tj). assert (D : (exists s, j = JStr s) \/ forall s, j <> JStr s) by (destruct j; eauto; right; discriminate). destruct D as [(s1 & ->)|D].
      + destruct (Unescaped_total s1) as (o & U & _). rewrite U. cbn [bind]. eexists _, None. split; [reflexivity|]. split; [constructor; auto|]. apply fi_string; auto.
      + replace (match j with JStr s0 => Unescaped s0 | _ => Ok [] end) with (@Ok bytes []) by (destruct j; auto; exfalso; eapply D; reflexivity). cbn [bind]. eexists _, None. split; [reflexivity|]. split; [constructor; auto|]. apply fi_string_other; auto.
    - (* interface *) injection H as <-. discriminate.
    - (* ptr *) destruct (typeUnmarshaler k E G M e) as [[c'|]| |] eqn:Ge; try discriminate. cbn [bind option_map] in H. injection H as <-. cbn [compilesU] in Cp. apply andb_true_iff in Cp as (Cp & _).
      assert (Le : e < length (types E)) by (eapply Mt; [exact K|left; reflexivity]). destruct (zero_good E e W Le) as [Bz Tz].
      assert (Q : exists x, v = VPtr x /\ typed E e (match x with Some x => x | None => zero E e end)).
      { inv_typed Tv; eexists; (split; [reflexivity|]); [exact Tz|]. match goal with A : kindOf E t = Some (KPtr ?g) |- _ => assert (g = e) by congruence; subst g end. assumption. }
      destruct Q as (x & -> & Tx). cbn [runU]. rewrite Lt. destruct (jtype j =? TypeNull)%N eqn:Nu.
      + assert (j = JNull) as -> by (destruct j; cbn in Nu; congruence). eexists _, None. split; [reflexivity|]. split; [eapply t_ptr_nil; eauto|]. eapply fi_ptr_null; eauto.
      + assert (Nj : j <> JNull) by (intros ->; discriminate). destruct (IH e c' Ge Cp _ _ _ Tx Tj) as (y & err & -> & Ty & R). cbn [bind fst snd]. eexists _, err. split; [reflexivity|]. split; [eapply t_ptr; eauto|].
        destruct err; [eapply rf_ptr; eauto|]. destruct x as [x|]; [eapply fi_ptr; eauto|eapply fi_ptr_new; eauto].
    - (* slice *) destruct (typeUnmarshaler k E G M e) as [[c'|]| |] eqn:Ge; try discriminate. cbn [bind option_map] in H. injection H as <-. cbn [compilesU] in Cp. apply andb_true_iff in Cp as (Cp & _).
      assert (Le : e < length (types E)) by (eapply Mt; [exact K|left; reflexivity]).
      assert (Q : exists x, v = VSlice x /\ match x with Some (l0, s0) => Forall (typed E e) (l0 ++ s0) | None => True end).
      { inv_typed Tv; eexists; (split; [reflexivity|]); [exact Logic.I|]. match goal with A : kindOf E t = Some (KSlice ?g) |- _ => assert (g = e) by congruence; subst g end. apply Forall_app; auto. }
      destruct Q as (x & -> & Tx). cbn [runU]. rewrite Lt. destruct j as [s0|s0| | | |js|ms]; try (apply Bad; [reflexivity|exact (fun X => X)]).
      + eexists _, None. split; [reflexivity|]. split; [eapply t_slice_nil; eauto|]. eapply fi_slice_null; eauto.
      + change (jtype (JArr js) =? TypeArray)%N with true. cbv iota. pose proof (Forall2_length _ _ _ Lj) as Ll. rewrite Ll.
        destruct (match x with None => _ | Some p => _ end) as [l s] eqn:Sl. destruct (gslots_lem E e x (length js) W Le l s Sl) as (Gs & Ln & Ty). destruct (Ty Tx) as (Tl & Ts).
        destruct (runSlots_ends (runU E M w c') n e _ _ Lj (fun x0 n' j' _ => fun Tx0 Tj' => IH e c' Ge Cp x0 n' j' Tx0 Tj') l ltac:(lia) Tl) as (l' & err & -> & Tl' & Ll' & R). cbn [bind fst snd].
        eexists _, err. split; [reflexivity|]. split.
        * destruct x as [p|]; [eapply t_slice; eauto|]. destruct l' as [|y l']; [eapply t_slice_nil; eauto|eapply t_slice; eauto].
        * destruct err as [er|]; [destruct R as (j' & I & R); eapply rf_slice; eauto|]. destruct R as (m & -> & R). rewrite Ll in *. assert (Lm : length m = length js).
          { clear - R. induction R; cbn; auto. }
          rewrite <- (firstn_skipn (length js) l) in Gs. destruct x as [p|].
          -- eapply fi_slice; eauto. discriminate.
          -- destruct Gs as (G1 & G2 & ->). rewrite firstn_skipn in G1. rewrite skipn_all2 in * by lia. rewrite app_nil_r in *. destruct js as [|j0 js].
             ++ destruct m; [|discriminate]. apply (fi_slice_nil E G M t e OK).
             ++ destruct m as [|y m]; [discriminate|]. pose proof (fi_slice E G M t e None (j0 :: js) (firstn (length (j0 :: js)) l) [] [] (y :: m) OK ltac:(discriminate)) as Fi. rewrite !app_nil_r in Fi. apply Fi; auto. unfold gslots. rewrite firstn_length. split; [lia|auto].
    - (* map *) destruct (typeUnmarshaler k E G M e) as [[c'|]| |] eqn:Ge; try discriminate. cbn [bind option_map] in H. injection H as <-. cbn [compilesU] in Cp. rewrite !andb_true_iff in Cp. destruct Cp as ((Ek & Cp) & _). destruct (keyOf_box _ _ Ek) as (Kb & Tb).
      assert (Le : e < length (types E)) by (eapply Mt; [exact K|right; left; reflexivity]).
      assert (Q : exists x, v = VMap x /\ Forall (fun p => typed E kt (fst p) /\ typed E e (snd p)) (match x with Some m => m | None => [] end) /\ NoDup (map fst (match x with Some m => m | None => [] end))).
      { inv_typed Tv; eexists; (split; [reflexivity|]); [split; constructor|]. match goal with A : kindOf E t = Some (KMap ?g ?g') |- _ => assert (g = kt /\ g' = e) as (? & ?) by (split; congruence); subst g g' end. auto. }
      destruct Q as (x & -> & Tx & Nx). cbn [runU]. rewrite Lt. destruct j as [s0|s0| | | |js|ms]; try (apply Bad; [reflexivity|exact (fun X => X)]).
      + eexists _, None. split; [reflexivity|]. split; [eapply t_map_nil; eauto|]. eapply fi_map_null; eauto.
      + change (jtype (JObj ms) =? TypeNull)%N with false. change (jtype (JObj ms) =? TypeObject)%N with true. cbv iota.
        destruct (runKeys_ends (runU E M w c') n kt (keyOf E kt) e Le Tb _ _ Lj (fun x0 n' k' j' _ => fun Tx0 Tj' => IH e c' Ge Cp x0 n' j' Tx0 Tj') _ Tx Nx) as (m' & err & -> & Tm & Nm & R). cbn [bind fst snd].
        eexists _, err. split; [reflexivity|]. split; [eapply t_map; eauto|]. destruct err as [er|]; [destruct R as (k' & j' & I & R); eapply rf_map; eauto|]. eapply fi_map; eauto.
    - (* struct *) destruct (ufold (typeUnmarshaler k E G M) E (headed E G M t) UNil) as [[r|]| |] eqn:Uf; try discriminate. cbn [bind option_map] in H. injection H as <-. destruct (struct_ucode E G M W P NP k t t r H0) as (_ & Uc). cbn [compilesU] in Cp.
      assert (Q : exists l, v = VStruct l) by (inv_typed Tv; eauto). destruct Q as (l & ->). cbn [runU]. rewrite Lt. destruct j as [s0|s0| | | |js|ms]; try (apply Bad; [reflexivity|exact (fun X => X)]).
      change (negb (jtype (JObj ms) =? TypeObject)%N) with false. cbv iota.
      assert (Fl : forall f, In f (fieldsOf M t) -> mtype f < length (types E)) by (intros f If; destruct (P t fs f K If) as (Wk & _); eapply field_lt; eauto).
      destruct (runMembers_ends t fs n (runCase E M w r t) K _ _ Lj) with (v := VStruct l) as (v' & err & -> & T' & R); auto.
      + intro key. pose proof (run_case _ t _ _ Uc Cp key) as Rc. destruct (runCase E M w r t key) as [d|].
        * destruct Rc as (params & f & c' & I & Fc & Cc & ->). apply headed_heads in I; auto. pose proof I as (a & b & Ef & _). assert (If : In f (fieldsOf M t)) by (rewrite Ef; apply in_elt).
          exists params, f, (runU E M w c'). split; auto. split; auto. split; [eapply P; eauto|]. destruct (fieldCode_cases E (typeUnmarshaler k E G M) params (mtype f) (Fl f If)) as [(Rs & Fc')|(Rs & Fc')]; rewrite Fc' in Fc.
          -- left. split; auto. injection Fc as <-. intros j x n' Tj' Tx. destruct Rs as (_ & Ks). inv_typed Tx. cbn [runU]. rewrite (raw_of _ _ _ Tj'). reflexivity.
          -- right. split; [exact Rs|]. intros. eapply IH; eauto.
        * intros params f Hf. apply headed_heads in Hf; auto. exact (Rc params f Hf).
      + exists v', err. split; auto. split; auto. destruct err as [er|]; [destruct R as (name & p & f & j' & I & Hf & Rs & R); eapply rf_field; eauto|]. eapply fi_struct; eauto.
  Qed.
End Run.

Scheme filled_mind := Minimality for filled Sort Prop
  with filled_each_mind := Minimality for filled_each Sort Prop
  with filled_keys_mind := Minimality for filled_keys Sort Prop
  with filled_fields_mind := Minimality for filled_fields Sort Prop.
Combined Scheme filled_all from filled_mind, filled_each_mind, filled_keys_mind, filled_fields_mind.
Section Sharp.
  Variables (E : env) (G : gopts) (M : genv).
  Lemma of_kind_det t k k' : of_kind E M t k -> of_kind E M t k' -> k = k'.
  Proof. intros (T & ET & _ & <-) (T' & ET' & _ & <-). congruence. Qed.
  Lemma kind_no_time t k : of_kind E M t k -> isTime M t = false. Proof. intros (T & _ & (H & _) & _). exact H. Qed.
  Lemma kind_no_json t k : of_kind E M t k -> ~ by_json E M t.
  Proof. intros (T & ET & (_ & _ & (_ & H & _)) & _) (T' & ET' & _ & _ & _ & H'). congruence. Qed.
  Lemma kind_no_text t k : of_kind E M t k -> ~ by_text E M t.
  Proof. intros (T & ET & (_ & _ & (_ & _ & H)) & _) (T' & ET' & _ & _ & _ & _ & H'). congruence. Qed.
  Lemma kind_needs t k : of_kind E M t k -> forall u, match k with KPtr e | KSlice e | KMap _ e => u = e | _ => False end -> needs_u E G M t u.
  Proof. intros (T & ET & B & <-) u H. eapply nu_elem; eauto. destruct (tkind T); subst; auto; contradiction. Qed.
  Lemma heads_det l name p f p' f' : heads E G l name p f -> heads E G l name p' f' -> p = p' /\ f = f'.
  Proof.
    intros (a & b & Ea & Pf & Cf & Na) (a' & b' & Ea' & Pf' & Cf' & Na'). rewrite Ea in Ea'. clear Ea l. revert a' Ea' Na'. induction a as [|x a IH]; intros [|x' a'] Ea' Na'; cbn in Ea'.
    - injection Ea' as <- _. rewrite Pf in Pf'. injection Pf' as <-. auto.
    - injection Ea' as <- _. destruct (Na' f p (or_introl eq_refl) Pf Cf).
    - injection Ea' as -> _. destruct (Na f' p' (or_introl eq_refl) Pf' Cf').
    - injection Ea' as <- Ea'. eapply IH; eauto; intros; [eapply Na|eapply Na']; try (right; eassumption); eassumption.
  Qed.
  Definition refused_at (k : kind) (t : tid) (j : jval) (e : uerr) : Prop :=
    match k with
    | KInt _ => exists s, digits_of j s /\ snd (ParseInt s) = false
    | KUint _ => exists s, digits_of j s /\ snd (ParseUint s) = false
    | KFloat32 | KFloat64 => exists s, digits_of j s /\ ParseFloat s = FNaN
    | KPtr u => j <> JNull /\ refused E G M u j e
    | KSlice u => exists js j', j = JArr js /\ In j' js /\ refused E G M u j' e
    | KMap _ u => exists ms key j', j = JObj ms /\ In (key, j') ms /\ refused E G M u j' e
    | KStruct _ => exists ms name params f j', j = JObj ms /\ In (name, j') ms /\ heads E G (fieldsOf M t) name params f /\ ~ raw_string E params (mtype f) /\ refused E G M (mtype f) j' e
    | _ => False
    end.
  Lemma refused_kind t k j e : of_kind E M t k -> refused E G M t j e -> ~ takes_u k j \/ refused_at k t j e.
  Proof.
    intros K R. inversion R as [? ? ? H|? ? ? ? ? H|? ? ? ? ? H|? ? H|? k' ? H|? b ? ? H|? b ? ? H|? ? ? H|? ? ? ? H|? ? ? ? ? H|? ? ? ? ? ? ? H|? ? ? ? ? ? ? ? H]; subst.
    - pose proof (kind_no_time _ _ K). congruence.
    - destruct (kind_no_json _ _ K H).
    - destruct (kind_no_text _ _ K H).
    - destruct (kind_no_text _ _ K H).
    - rewrite (of_kind_det _ _ _ K H). auto.
    - rewrite (of_kind_det _ _ _ K H). right. exists s. auto.
    - rewrite (of_kind_det _ _ _ K H). right. exists s. auto.
    - destruct H as [H|H]; rewrite (of_kind_det _ _ _ K H); right; exists s; auto.
    - rewrite (of_kind_det _ _ _ K H). right. split; auto.
    - rewrite (of_kind_det _ _ _ K H). right. exists js, j0. auto.
    - rewrite (of_kind_det _ _ _ K H). right. exists ms, key, j0. auto.
    - rewrite (of_kind_det _ _ _ K H). right. exists ms, name, params, f, j0. auto.
  Qed.
  Lemma digits_det j s s' : digits_of j s -> digits_of j s' -> s = s'.
  Proof. intros [->| ->] [D|D]; congruence. Qed.
  Lemma filled_sharp :
    (forall t v j v', filled E G M t v j v' -> read_by_kind E G M t -> forall e, ~ refused E G M t j e) /\
    (forall t l js l', filled_each E G M t l js l' -> read_by_kind E G M t -> forall j e, In j js -> ~ refused E G M t j e) /\
    (forall t box ms m m', filled_keys E G M t box ms m m' -> read_by_kind E G M t -> forall k j e, In (k, j) ms -> ~ refused E G M t j e) /\
    (forall t ms v v', filled_fields E G M t ms v v' -> forall fs, of_kind E M t (KStruct fs) -> read_by_kind E G M t ->
      forall name params f j e, In (name, j) ms -> heads E G (fieldsOf M t) name params f -> ~ raw_string E params (mtype f) -> ~ refused E G M (mtype f) j e).
  Proof.
    assert (Down : forall t u, needs_u E G M t u -> read_by_kind E G M t -> read_by_kind E G M u) by (intros t u N R x Sx; apply R; eapply star_step; eauto).
    assert (Here : forall t, read_by_kind E G M t -> exists k, of_kind E M t k) by (intros t R; destruct (R t (star_here _ _)) as (T & ET & B); exists (tkind T), T; auto).
    assert (Num : forall k j s, digits_of j s -> match k with KInt _ | KUint _ | KFloat32 | KFloat64 => True | _ => False end -> takes_u k j) by (intros k j s [->| ->] H; destruct k; try contradiction; exact Logic.I).
    assert (Kd : forall t k j e, of_kind E M t k -> refused E G M t j e -> takes_u k j -> refused_at k t j e) by (intros t k j e K R T; destruct (refused_kind t k j e K R); [contradiction|assumption]).
    apply filled_all.
    - intros t v j x It _ R. destruct (Here t R) as (k & K). pose proof (kind_no_time _ _ K). congruence.
    - intros t v j x B _ R. destruct (Here t R) as (k & K). destruct (kind_no_json _ _ K B).
    - intros t v j x B _ R. destruct (Here t R) as (k & K). destruct (kind_no_text _ _ K B).
    - intros t b K _ e R. exact (Kd _ _ _ _ K R Logic.I).
    - intros t b K _ e R. exact (Kd _ _ _ _ K R Logic.I).
    - intros t bits z j s n q K Dg Pi _ _ e R. destruct (Kd _ _ _ _ K R (Num (KInt bits) _ _ Dg Logic.I)) as (s' & Dg' & Q). rewrite <- (digits_det _ _ _ Dg Dg'), Pi in Q. discriminate.
    - intros t bits z j s n q K Dg Pi _ _ e R. destruct (Kd _ _ _ _ K R (Num (KUint bits) _ _ Dg Logic.I)) as (s' & Dg' & Q). rewrite <- (digits_det _ _ _ Dg Dg'), Pi in Q. discriminate.
    - intros t f j s K Dg Pf _ e R. destruct (Kd _ _ _ _ K R (Num KFloat32 _ _ Dg Logic.I)) as (s' & Dg' & Q). rewrite <- (digits_det _ _ _ Dg Dg') in Q. contradiction.
    - intros t f j s K Dg Pf _ e R. destruct (Kd _ _ _ _ K R (Num KFloat64 _ _ Dg Logic.I)) as (s' & Dg' & Q). rewrite <- (digits_det _ _ _ Dg Dg') in Q. contradiction.
    - intros t s0 s o K _ _ e R. exact (Kd _ _ _ _ K R Logic.I).
    - intros t s0 j K _ _ e R. exact (Kd _ _ _ _ K R Logic.I).
    - intros t e x K _ er R. destruct (Kd _ _ _ _ K R Logic.I) as (N & _). apply N. reflexivity.
    - intros t e x j y K _ _ IH Rk er R. destruct (Kd _ _ _ _ K R Logic.I) as (_ & R'). eapply IH; [|exact R']. eapply Down; [|exact Rk]. eapply kind_needs; [exact K|reflexivity].
    - intros t e z j y K _ _ _ IH Rk er R. destruct (Kd _ _ _ _ K R Logic.I) as (_ & R'). eapply IH; [|exact R']. eapply Down; [|exact Rk]. eapply kind_needs; [exact K|reflexivity].
    - intros t e x K _ er R. destruct (Kd _ _ _ _ K R Logic.I) as (js & j & Q & _). discriminate.
    - intros t e K _ er R. destruct (Kd _ _ _ _ K R Logic.I) as (js & j & Q & I & _). injection Q as <-. destruct I.
    - intros t e x js l1 l2 s l' K _ _ _ IH Rk er R. destruct (Kd _ _ _ _ K R Logic.I) as (js' & j & Q & I & R'). injection Q as <-. eapply IH; [|exact I|exact R']. eapply Down; [|exact Rk]. eapply kind_needs; [exact K|reflexivity].
    - intros t k e x K _ er R. destruct (Kd _ _ _ _ K R Logic.I) as (js & key & j & Q & _). discriminate.
    - intros t kt box e x ms m' K _ _ IH Rk er R. destruct (Kd _ _ _ _ K R Logic.I) as (js' & key & j & Q & I & R'). injection Q as <-. eapply IH; [|exact I|exact R']. eapply Down; [|exact Rk]. eapply kind_needs; [exact K|reflexivity].
    - intros t fs l ms v' K _ IH Rk er R. destruct (Kd _ _ _ _ K R Logic.I) as (js' & name & params & f & j & Q & I & Hf & Rs & R'). injection Q as <-. eapply IH; eauto.
    - intros e _ j er [].
    - intros e x l j js y l' _ IH _ IHs Rk j0 er [<-|I]; eauto.
    - intros e box m _ k j er [].
    - intros e box k j ms m z y m1 m' _ _ IH _ _ IHs Rk k0 j0 er [Q|I]; [injection Q as <- <-; eauto|eauto].
    - intros t v fs _ _ name params f j e [].
    - intros t k j ms v v' No _ IH fs K Rk name params f j0 e [Q|I] Hf; [injection Q as <- <-; destruct (No _ _ Hf)|eauto].
    - intros t k j ms v params f x v1 v' Hf Rs _ _ IH fs K Rk name params' f' j0 e [Q|I] Hf' Rs'; [|eauto]. injection Q as <- <-. destruct (heads_det _ _ _ _ _ _ Hf Hf') as (<- & <-). contradiction.
    - intros t k j ms v params f x y v1 v' Hf Rs _ _ IHf _ IH fs K Rk name params' f' j0 e [Q|I] Hf' Rs'; [|eauto]. injection Q as <- <-. destruct (heads_det _ _ _ _ _ _ Hf Hf') as (<- & <-). apply IHf. eapply Down; [|exact Rk]. destruct K as (T & ET & B & Kt). eapply nu_field; eauto.
  Qed.
End Sharp.

Lemma C62_lem E G M w t c v n j : wf_types E -> paths_ok E M -> no_point_loop E -> unmarshalers_return E M ->
  typed E t v -> tree_of w n j -> Unmarshaler E G M t = Ok (Some c) -> compilesUnmarshaler M t c = true ->
  exists v' err, runUnmarshaler E M w c v n = Ok (v', err) /\ typed E t v' /\
    match j with
    | JNull => v' = v /\ err = None
    | _ => match err with None => filled E G M t v j v' | Some e => refused E G M t j e end
    end.
Proof.
  intros W P NP UR Tv Tj H Cp. unfold compilesUnmarshaler in Cp. rewrite !andb_true_iff in Cp. destruct Cp as (_ & (Cp & _) & _).
  destruct (runU_ends E G M w W P NP UR _ t c H Cp v n j Tv Tj) as (v' & err & R & T' & Q). unfold runUnmarshaler. rewrite (proj1 (tree_look _ _ _ Tj)).
  assert (Hv : Type_IsValue (jtype j) = true) by (destruct j; reflexivity). rewrite Hv. cbn [negb]. destruct (jtype j =? TypeNull)%N eqn:Nu.
  - assert (j = JNull) as -> by (destruct j; cbn in Nu; congruence). exists v, None. auto.
  - exists v', err. split; [exact R|]. split; [exact T'|]. destruct j; try exact Q. discriminate.
Qed.
Lemma C62_sharp_lem E G M w t c v n j : wf_types E -> paths_ok E M -> no_point_loop E -> unmarshalers_return E M -> read_by_kind E G M t ->
  typed E t v -> tree_of w n j -> j <> JNull -> Unmarshaler E G M t = Ok (Some c) -> compilesUnmarshaler M t c = true ->
  exists v' err, runUnmarshaler E M w c v n = Ok (v', err) /\ (err = None <-> filled E G M t v j v') /\ (err = None <-> forall e, ~ refused E G M t j e).
Proof.
  intros W P NP UR Rk Tv Tj Nj H Cp. destruct (C62_lem E G M w t c v n j W P NP UR Tv Tj H Cp) as (v' & err & R & T' & Q). exists v', err. split; auto.
  assert (Q' : match err with None => filled E G M t v j v' | Some e => refused E G M t j e end) by (destruct j; try exact Q; congruence). pose proof (proj1 (filled_sharp E G M) t v j v') as S0. destruct err as [er|].
  - split; split; try discriminate; intro F; exfalso; [exact (S0 F Rk er Q')|exact (F er Q')].
  - split; split; auto.
Qed.
Lemma C62_dead_lem E M w c v n : Node_get w n = None -> runUnmarshaler E M w c v n = Ok (v, Some (UType (TypeErr TypeInvalid TypeAnyValue))).
Proof. intro D. unfold runUnmarshaler, typeError, Node_TypeError, Node_Type. rewrite D. reflexivity. Qed.
