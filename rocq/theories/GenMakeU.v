(* Proofs for C60, the UnmarshalNodeJSON methods: when the generator returns, when it makes code, and when Go accepts the
   code. *)
From Coq Require Import Permutation.
From Verif Require Import FloatSpec NumSpec FmtSpec StrSpec Bytes Types JsonSpec Parser Doc DocSpec Strjson Float Num Iface IfaceSpec Options Codec CodecSpec CodecMerge CodecBase DecodeSpec Gen GenSpec GoLitSpec GoLit GoLitThms GenMake.
Local Open Scope nat_scope.

Section Can.
  Variable E : env.
  Hypothesis W : wf_types E.
  Lemma points_lt t e : points E t e -> e < length (types E).
  Proof. destruct W as (R & _). inversion 1; subst; eapply R; try eassumption; left; reflexivity. Qed.
  Lemma can_spec : forall fuel t b, canUnmarshal fuel E t = Ok b -> (b = true <-> can E t).
  Proof.
    induction fuel as [|k IH]; intros t b H; [discriminate|]. cbn [canUnmarshal] in H. destruct (typeOf E t) as [T|] eqn:ET.
    2:{ injection H as <-. split; [discriminate|]. intro C. assert (exists k, kindOf E t = Some k) as (kd & K) by (destruct C as [t e P _|t f fs K|t kd K _]; [inversion P|..]; eauto). unfold kindOf in K. rewrite ET in K. discriminate. }
    pose proof (typeOf_kindOf _ _ _ ET) as K.
    assert (El : forall e, points E t e -> canUnmarshal k E e = Ok b -> (b = true <-> can E t)).
    { intros e P D. rewrite (IH e b D). split; [intro C; eapply can_elem; eassumption|]. intro C. destruct C as [t e' P' C|t f fs K'|t kd K' Q].
      - replace e with e'; [exact C|]. inversion P; inversion P'; congruence.
      - inversion P; congruence.
      - exfalso. inversion P as [t1 e1 K1|t1 e1 K1]; subst; rewrite K1 in K'; injection K' as <-; contradiction. }
    destruct (tkind T) as [| | | | | |[]|e|e| |kt e|[|f fs]|] eqn:Kt.
    all: try (apply (El e); [constructor; exact K|exact H]).
    all: injection H as <-; cbn [negb]; split; try discriminate; auto.
    all: try (intros _; eapply can_kind; [exact K|exact Logic.I]).
    all: try (intros _; eapply can_struct; exact K).
    all: intro C; exfalso; destruct C as [t e' P' C|t f fs' K'|t kd K' Q]; [inversion P'; congruence|congruence|rewrite K in K'; injection K' as <-; contradiction].
  Qed.
  Lemma can_run : forall fuel t, canUnmarshal (S fuel) E t = Diverge -> exists l, length l = fuel /\ run (points E) t l.
  Proof.
    induction fuel as [|k IH]; intros t H; [exists []; split; [reflexivity|constructor]|]. change (canUnmarshal (S (S k)) E t) with (match typeOf E t with None => Ok false | Some T => match tkind T with
      | KMap _ _ => Ok true | KStruct fs => Ok (match fs with [] => false | _ => true end) | KSlice e | KPtr e => canUnmarshal (S k) E e
      | KBool | KString | KInt _ | KUint _ | KFloat32 | KFloat64 => Ok true | KIface m => Ok (negb m) | KArray _ _ | KOther => Ok false end end) in H.
    destruct (typeOf E t) as [T|] eqn:ET; [|discriminate]. pose proof (typeOf_kindOf _ _ _ ET) as K. destruct (tkind T); try discriminate; destruct (IH _ H) as (l & L & C); exists (e :: l); (split; [cbn; congruence|]); (constructor; [|exact C]); [left|right]; exact K.
  Qed.
  Lemma can_nopanic : forall fuel t, canUnmarshal fuel E t <> Panic.
  Proof. induction fuel as [|k IH]; intro t; cbn [canUnmarshal]; [discriminate|]. destruct (typeOf E t) as [T|]; [|discriminate]. destruct (tkind T); try discriminate; apply IH. Qed.
  Definition canB (t : tid) : bool := match canUnmarshal (S (length (types E))) E t with Ok b => b | _ => false end.
  Hypothesis NP : no_point_loop E.
  Lemma canB_spec t : t < length (types E) -> canUnmarshal (S (length (types E))) E t = Ok (canB t) /\ (canB t = true <-> can E t).
  Proof.
    intro Lt. unfold canB. destruct (canUnmarshal (S (length (types E))) E t) as [b| |] eqn:D.
    - split; auto. eapply can_spec; eassumption.
    - destruct (can_nopanic _ _ D).
    - exfalso. destruct (can_run _ _ D) as (l & L & C). apply (NP t). apply (run_loops _ (length (types E)) t l); auto. intros a b. apply points_lt.
  Qed.
End Can.

Definition fieldCode (gen : tid -> res (option ucode)) (E : env) (params : list bytes) (t : tid) : res (option ucode) :=
  if has rawParam params && isStringKind E t then Ok (Some URaw) else gen t.
Fixpoint ufold (gen : tid -> res (option ucode)) (E : env) (cs : list (bytes * list bytes * mfield)) (fs : ufields) : res (option ufields) :=
  match cs with
  | [] => Ok (Some fs)
  | (name, params, f) :: r =>
      let! c := fieldCode gen E params (mtype f) in
      match c with None => Ok None | Some c => ufold gen E r (lastField fs name (mpath f) c) end
  end.
Fixpoint uapp (a b : ufields) : ufields := match a with UNil => b | UCons n p c r => UCons n p c (uapp r b) end.
Lemma lastField_app fs name path c r : uapp (lastField fs name path c) r = uapp fs (UCons name path c r).
Proof. induction fs; cbn [lastField uapp]; congruence. Qed.
(* The code for the fields. *)
Inductive ucoded (gen : tid -> res (option ucode)) (E : env) : list (bytes * list bytes * mfield) -> ufields -> Prop :=
| uco_nil : ucoded gen E [] UNil
| uco_cons name params f cs c r : fieldCode gen E params (mtype f) = Ok (Some c) -> ucoded gen E cs r -> ucoded gen E ((name, params, f) :: cs) (UCons name (mpath f) c r).
Lemma ufold_coded gen E : forall cs fs fs', ufold gen E cs fs = Ok (Some fs') -> exists r, ucoded gen E cs r /\ fs' = uapp fs r.
Proof.
  induction cs as [|[[name params] f] cs IH]; intros fs fs' H; cbn [ufold] in H.
  - injection H as <-. exists UNil. split; [constructor|]. clear. induction fs; cbn [uapp]; congruence.
  - destruct (fieldCode gen E params (mtype f)) as [[c|]| |] eqn:Fc; try discriminate. cbn [bind] in H. destruct (IH _ _ H) as (r & C & ->). exists (UCons name (mpath f) c r). split; [constructor; auto|]. apply lastField_app.
Qed.
Lemma ufold_cases gen E : (forall t, gen t <> Panic) -> forall cs fs,
  match ufold gen E cs fs with
  | Panic => False
  | Diverge => exists name params f, In (name, params, f) cs /\ fieldCode gen E params (mtype f) = Diverge
  | Ok None => exists name params f, In (name, params, f) cs /\ fieldCode gen E params (mtype f) = Ok None
  | Ok (Some _) => forall name params f, In (name, params, f) cs -> exists c, fieldCode gen E params (mtype f) = Ok (Some c)
  end.
Proof.
  intro Np. induction cs as [|[[name params] f] cs IH]; intro fs; cbn [ufold]; [intros ? ? ? []|].
  assert (N0 : fieldCode gen E params (mtype f) <> Panic) by (unfold fieldCode; destruct (has rawParam params && isStringKind E (mtype f)); [discriminate|apply Np]).
  destruct (fieldCode gen E params (mtype f)) as [[c|]| |] eqn:Fc; cbn [bind]; try congruence; try (exists name, params, f; split; [left; reflexivity|exact Fc]).
  specialize (IH (lastField fs name (mpath f) c)). destruct (ufold gen E cs (lastField fs name (mpath f) c)) as [[r|]| |].
  - intros n p g [Q|I]; [injection Q as <- <- <-; eauto|eauto].
  - destruct IH as (n & p & g & I & H). exists n, p, g. split; [right; exact I|exact H].
  - contradiction.
  - destruct IH as (n & p & g & I & H). exists n, p, g. split; [right; exact I|exact H].
Qed.

Section Read.
  Variables (E : env) (G : gopts) (M : genv).
  Hypothesis W : wf_types E.
  Hypothesis P : paths_ok E M.
  Hypothesis NP : no_point_loop E.
  Definition headed (t : tid) : list (bytes * list bytes * mfield) := chosen G [] (filter (fun f => canB E (mtype f)) (fieldsOf M t)).
  Lemma parseVar_blank f : mname f = str "_" -> parseVar G f = None.
  Proof. intro H. unfold parseVar, MatchField. rewrite H. reflexivity. Qed.
  Lemma fields_ufold gen : forall l used fs, (forall f, In f l -> mtype f < length (types E)) ->
    unmarshalFields gen E G used l fs = ufold gen E (chosen G used (filter (fun f => canB E (mtype f)) l)) fs.
  Proof.
    induction l as [|f l IH]; intros used fs Lt; cbn [unmarshalFields filter]; [reflexivity|]. assert (Lt' : forall f, In f l -> mtype f < length (types E)) by (intros; apply Lt; right; assumption).
    destruct (canB_spec E W NP _ (Lt f (or_introl eq_refl))) as (-> & _). cbn [bind]. destruct (bseqb (mname f) (str "_")) eqn:Bl.
    - apply bseqb_true in Bl. destruct (canB E (mtype f)); cbn [chosen]; rewrite ?(parseVar_blank f Bl); apply IH; exact Lt'.
    - destruct (canB E (mtype f)); cbn [negb]; [|apply IH; exact Lt']. cbn [chosen]. destruct (parseVar G f) as [[name params]|]; [|apply IH; exact Lt'].
      destruct (has name used); [apply IH; exact Lt'|]. cbn [ufold]. unfold fieldCode. destruct (has rawParam params && isStringKind E (mtype f)); cbn [bind].
      + apply IH. exact Lt'.
      + destruct (gen (mtype f)) as [[c|]| |]; cbn [bind]; try reflexivity. apply IH. exact Lt'.
  Qed.
  Lemma headed_heads t name params f : (forall f, In f (fieldsOf M t) -> mtype f < length (types E)) -> (In (name, params, f) (headed t) <-> heads E G (fieldsOf M t) name params f).
  Proof.
    intro Lt. unfold headed. rewrite chosen_In. assert (Cb : forall g, In g (fieldsOf M t) -> (canB E (mtype g) = true <-> can E (mtype g))) by (intros g Ig; apply canB_spec; auto). split.
    - intros (_ & Pf & r & H). change (f :: r) with ([] ++ f :: r) in H. destruct (filter_split _ _ _ _ _ H) as (a & b & H1 & A & _). destruct (filter_split _ _ _ _ _ H1) as (a' & b' & H2 & A' & _).
      exists a', b'. split; auto. split; auto. assert (If : In f (filter (fun f => canB E (mtype f)) (fieldsOf M t))) by (rewrite H1; apply in_elt). apply filter_In in If as (If & Cf). split; [apply Cb; auto|].
      intros g ps Ig Pg Cg. assert (Ig' : In g (fieldsOf M t)) by (rewrite H2; apply in_or_app; auto). assert (Q : In g (filter (named G name) a)) by (apply filter_In; split; [rewrite <- A'; apply filter_In; split; [exact Ig|apply Cb; auto]|apply named_iff; eauto]). rewrite A in Q. destruct Q.
    - intros (a & b & H & Pf & Cf & N). split; [intros []|]. split; auto. assert (If : In f (fieldsOf M t)) by (rewrite H; apply in_elt). exists (filter (named G name) (filter (fun f => canB E (mtype f)) b)).
      rewrite H, !filter_app. cbn [filter]. rewrite (proj2 (Cb f If) Cf). cbn [filter]. rewrite (proj2 (named_iff G name f) (ex_intro _ _ Pf)).
      replace (filter (named G name) (filter (fun f0 => canB E (mtype f0)) a)) with (@nil mfield); [reflexivity|]. symmetry. assert (Ia : forall g, In g a -> In g (fieldsOf M t)) by (intros g Ig; rewrite H; apply in_or_app; auto). clear - N Cb Ia.
      induction a as [|g a IH]; [reflexivity|]. cbn [filter]. assert (IH' := IH ltac:(intros; eapply N; [right; eassumption|eassumption]) ltac:(intros; apply Ia; right; assumption)).
      destruct (canB E (mtype g)) eqn:Cg; [|exact IH']. cbn [filter]. destruct (named G name g) eqn:Ng; [|exact IH']. exfalso. apply named_iff in Ng as (ps & Pg). exact (N g ps (or_introl eq_refl) Pg (proj1 (Cb g (Ia g (or_introl eq_refl))) Cg)).
  Qed.
  Lemma methods_u (t : tid) (T : tdef) : by_kind_u M t T \/ isTime M t = true \/ isTime M t = false /\ isDuration M t = true \/ isTime M t = false /\ isDuration M t = false /\ isNodeU (tptr T) = true \/
    isTime M t = false /\ isDuration M t = false /\ isNodeU (tptr T) = false /\ isJSONU (tptr T) = true \/
    isTime M t = false /\ isDuration M t = false /\ isNodeU (tptr T) = false /\ isJSONU (tptr T) = false /\ isTextU (tptr T) = true.
  Proof. unfold by_kind_u, no_unmarshaler. destruct (isTime M t), (isDuration M t), (isNodeU (tptr T)), (isJSONU (tptr T)), (isTextU (tptr T)); intuition. Qed.
  Lemma typeUnmarshaler_S k t : typeUnmarshaler (S k) E G M t =
    match typeOf E t with
    | None => Ok None
    | Some T =>
      if isTime M t then Ok (Some UTime)
      else if isDuration M t then Ok (Some UDuration)
      else if isNodeU (tptr T) then Ok (Some (UNode t))
      else if isJSONU (tptr T) then Ok (Some (UJSON t))
      else if isTextU (tptr T) then Ok (Some (UText t))
      else
      match tkind T with
      | KMap kt e => let! c := typeUnmarshaler k E G M e in Ok (option_map (UMap (keyOf E kt) e) c)
      | KStruct _ => let! fs := ufold (typeUnmarshaler k E G M) E (headed t) UNil in Ok (option_map (UStruct t) fs)
      | KSlice e => let! c := typeUnmarshaler k E G M e in Ok (option_map (USlice e) c)
      | KPtr e => let! c := typeUnmarshaler k E G M e in Ok (option_map (UPtr e) c)
      | KBool => Ok (Some UBool)
      | KString => Ok (Some UString)
      | KInt b => Ok (Some (UInt b))
      | KUint b => Ok (Some (UUint b))
      | (KFloat32 | KFloat64) as kd => Ok (Some (UFloat kd))
      | KIface false => Ok (Some UIface)
      | KIface true | KArray _ _ | KOther => Ok None
      end
    end.
  Proof.
    cbn [typeUnmarshaler]. destruct (typeOf E t) as [T|] eqn:ET; [|reflexivity]. destruct (isTime M t); [reflexivity|]. destruct (isDuration M t); [reflexivity|].
    destruct (isNodeU (tptr T)); [reflexivity|]. destruct (isJSONU (tptr T)); [reflexivity|]. destruct (isTextU (tptr T)); [reflexivity|].
    destruct (tkind T) as [| | | | | |[]|e|e| |kt e|fs|] eqn:K; try reflexivity. rewrite fields_ufold; [reflexivity|]. intros f If. eapply (field_lt E M W P t); [rewrite (typeOf_kindOf _ _ _ ET), K; reflexivity|exact If].
  Qed.
  Lemma struct_fields t fs : kindOf E t = Some (KStruct fs) -> forall f, In f (fieldsOf M t) -> mtype f < length (types E).
  Proof. intros K f If. exact (field_lt E M W P t fs f K If). Qed.
  Lemma needs_u_lt t u : needs_u E G M t u -> u < length (types E).
  Proof.
    intro N. inversion N as [t0 T e ET Bk Ke|t0 T fs name params f ET Bk K0 Hd Nr]; subst; pose proof (typeOf_kindOf _ _ _ ET) as K.
    - destruct W as (R & _). apply (R t (tkind T) u K). destruct (tkind T); cbn [mentions In]; try contradiction; subst; auto.
    - rewrite K0 in K. eapply struct_fields; [exact K|]. destruct Hd as (a & b & H & _). rewrite H. apply in_elt.
  Qed.
  Lemma typeUnmarshaler_nopanic : forall fuel t, typeUnmarshaler fuel E G M t <> Panic.
  Proof.
    induction fuel as [|k IH]; intros t; [discriminate|]. rewrite typeUnmarshaler_S. destruct (typeOf E t) as [T|]; [|discriminate].
    destruct (isTime M t); [discriminate|]. destruct (isDuration M t); [discriminate|]. destruct (isNodeU (tptr T)); [discriminate|]. destruct (isJSONU (tptr T)); [discriminate|]. destruct (isTextU (tptr T)); [discriminate|].
    destruct (tkind T) as [| | | | | |[]|e|e| |kt e|fs|]; try discriminate; try (specialize (IH e); destruct (typeUnmarshaler k E G M e); cbn [bind]; congruence).
    pose proof (ufold_cases (typeUnmarshaler k E G M) E IH (headed t) UNil) as A. destruct (ufold (typeUnmarshaler k E G M) E (headed t) UNil) as [[r|]| |]; cbn [bind]; try discriminate. contradiction.
  Qed.
  Lemma raw_string_iff params t : t < length (types E) -> (has rawParam params && isStringKind E t = true <-> raw_string E params t).
  Proof.
    intro Lt. unfold raw_string, isStringKind, kindOf. rewrite andb_true_iff, has_In. apply nth_error_Some in Lt. unfold typeOf. destruct (nth_error (types E) t) as [T|]; [|congruence]. cbn [option_map].
    destruct (tkind T); split; intros (A & B); split; auto; congruence.
  Qed.
  Lemma fieldCode_cases gen params t : t < length (types E) -> (raw_string E params t /\ fieldCode gen E params t = Ok (Some URaw)) \/ (~ raw_string E params t /\ fieldCode gen E params t = gen t).
  Proof. intro Lt. pose proof (raw_string_iff params t Lt) as H. unfold fieldCode. destruct (has rawParam params && isStringKind E t); [left; split; auto; apply H; reflexivity|right; split; auto; intro Q; apply H in Q; discriminate]. Qed.
  (* a type read by its kind *)
  Ltac kind ET Bk H := rewrite typeUnmarshaler_S, ET in H; pose proof Bk as (?B1 & ?B2 & ?B3 & ?B4 & ?B5); rewrite B1, B2, B3, B4, B5 in H.
  Lemma typeUnmarshaler_run : forall fuel t, typeUnmarshaler (S fuel) E G M t = Diverge -> exists l, length l = fuel /\ run (needs_u E G M) t l.
  Proof.
    induction fuel as [|k IH]; intros t H; [exists []; split; [reflexivity|constructor]|]. assert (exists T, typeOf E t = Some T) as (T & ET) by (rewrite typeUnmarshaler_S in H; destruct (typeOf E t); [eauto|discriminate]).
    assert (Bk : by_kind_u M t T). { rewrite typeUnmarshaler_S, ET in H. destruct (methods_u t T) as [Q|[Q|[(Q1 & Q2)|[(Q1 & Q2 & Q3)|[(Q1 & Q2 & Q3 & Q4)|(Q1 & Q2 & Q3 & Q4 & Q5)]]]]]; [exact Q|rewrite ?Q, ?Q1, ?Q2, ?Q3, ?Q4, ?Q5 in H; discriminate..]. }
    kind ET Bk H. assert (Step : forall u, needs_u E G M t u -> typeUnmarshaler (S k) E G M u = Diverge -> exists l, length l = S k /\ run (needs_u E G M) t l).
    { intros u N D. destruct (IH u D) as (l & L & C). exists (u :: l). split; [cbn; congruence|]. constructor; assumption. }
    destruct (tkind T) as [| | | | | |[]|e|e| |kt e|fs|] eqn:K; try discriminate;
      try (apply (Step e); [eapply nu_elem; [exact ET|exact Bk|rewrite K; reflexivity]|]; destruct (typeUnmarshaler (S k) E G M e) eqn:D; cbn [bind] in H; congruence).
    pose proof (ufold_cases (typeUnmarshaler (S k) E G M) E (typeUnmarshaler_nopanic _) (headed t) UNil) as A. destruct (ufold (typeUnmarshaler (S k) E G M) E (headed t) UNil) as [[r|]| |]; cbn [bind] in H; try discriminate. clear H.
    destruct A as (name & params & f & I & D). assert (Kd : kindOf E t = Some (KStruct fs)) by (rewrite (typeOf_kindOf _ _ _ ET), K; reflexivity). pose proof (struct_fields t fs Kd) as Lt. apply (headed_heads t name params f Lt) in I.
    assert (If : In f (fieldsOf M t)) by (destruct I as (a & b & Q & _); rewrite Q; apply in_elt). destruct (fieldCode_cases (typeUnmarshaler (S k) E G M) params (mtype f) (Lt f If)) as [(Rs & Q)|(Nr & Q)]; [congruence|].
    apply (Step (mtype f)); [econstructor; eassumption|congruence].
  Qed.
  Lemma typeUnmarshaler_down : forall fuel t c, typeUnmarshaler (S fuel) E G M t = Ok (Some c) -> forall u, needs_u E G M t u -> exists c', typeUnmarshaler fuel E G M u = Ok (Some c').
  Proof.
    intros k t c H u N. inversion N as [t0 T e ET Bk Ke|t0 T fs name params f ET Bk K Hd Nr]; subst; kind ET Bk H.
    - destruct (tkind T) as [| | | | | |[]|e|e| |kt e|fs|]; try contradiction; subst; (destruct (typeUnmarshaler k E G M u) as [[c'|]| |]; try discriminate; eauto).
    - rewrite K in H. pose proof (ufold_cases (typeUnmarshaler k E G M) E (typeUnmarshaler_nopanic _) (headed t) UNil) as A. destruct (ufold (typeUnmarshaler k E G M) E (headed t) UNil) as [[r|]| |]; cbn [bind option_map] in H; try discriminate.
      assert (Kd : kindOf E t = Some (KStruct fs)) by (rewrite (typeOf_kindOf _ _ _ ET), K; reflexivity). pose proof (struct_fields t fs Kd) as Lt. assert (If : In f (fieldsOf M t)) by (destruct Hd as (a & b & Q & _); rewrite Q; apply in_elt).
      apply (headed_heads t name params f Lt) in Hd. destruct (A _ _ _ Hd) as (c' & Fc). destruct (fieldCode_cases (typeUnmarshaler k E G M) params (mtype f) (Lt f If)) as [(Rs & Q)|(_ & Q)]; [contradiction|]. exists c'. congruence.
  Qed.
  Lemma typeUnmarshaler_loops : forall fuel t c, loops (needs_u E G M) t -> typeUnmarshaler fuel E G M t <> Ok (Some c).
  Proof.
    induction fuel as [|k IH]; intros t c L H; [discriminate|]. destruct (loops_step _ _ L) as (u & N & Lu). destruct (typeUnmarshaler_down _ _ _ H u N) as (c' & D). exact (IH u c' Lu D).
  Qed.
  Lemma typeUnmarshaler_none : forall fuel t r, t < length (types E) -> typeUnmarshaler fuel E G M t = Ok r ->
    (r = None -> exists u, star (needs_u E G M) t u /\ codeless_u E M u) /\ (r <> None -> forall u, star (needs_u E G M) t u -> ~ codeless_u E M u).
  Proof.
    induction fuel as [|k IH]; intros t r Lt H; [discriminate|]. split.
    - intros ->. apply nth_error_Some in Lt. destruct (typeOf E t) as [T|] eqn:ET; [clear Lt|exfalso; unfold typeOf in ET; congruence].
      assert (Bk : by_kind_u M t T). { rewrite typeUnmarshaler_S, ET in H. destruct (methods_u t T) as [Q|[Q|[(Q1 & Q2)|[(Q1 & Q2 & Q3)|[(Q1 & Q2 & Q3 & Q4)|(Q1 & Q2 & Q3 & Q4 & Q5)]]]]]; [exact Q|rewrite ?Q, ?Q1, ?Q2, ?Q3, ?Q4, ?Q5 in H; discriminate..]. }
      kind ET Bk H. assert (Step : forall u, needs_u E G M t u -> typeUnmarshaler k E G M u = Ok None -> exists v, star (needs_u E G M) t v /\ codeless_u E M v).
      { intros u N D. destruct (IH u None (needs_u_lt _ _ N) D) as (A & _). destruct (A eq_refl) as (v & Sv & C). exists v. split; auto. econstructor; eassumption. }
      assert (Here : match tkind T with KIface true | KArray _ _ | KOther => True | _ => False end -> exists v, star (needs_u E G M) t v /\ codeless_u E M v) by (intro Q; exists t; split; [constructor|]; exists T; auto).
      destruct (tkind T) as [| | | | | |[]|e|e| |kt e|fs|] eqn:K; try discriminate; try (apply Here; exact Logic.I);
        try (apply (Step e); [eapply nu_elem; [exact ET|exact Bk|rewrite K; reflexivity]|]; destruct (typeUnmarshaler k E G M e) as [[c|]| |] eqn:D; cbn [bind option_map] in H; congruence).
      pose proof (ufold_cases (typeUnmarshaler k E G M) E (typeUnmarshaler_nopanic _) (headed t) UNil) as A. destruct (ufold (typeUnmarshaler k E G M) E (headed t) UNil) as [[r|]| |]; cbn [bind option_map] in H; try discriminate. clear H.
      destruct A as (name & params & f & I & D). assert (Kd : kindOf E t = Some (KStruct fs)) by (rewrite (typeOf_kindOf _ _ _ ET), K; reflexivity). pose proof (struct_fields t fs Kd) as Lt. apply (headed_heads t name params f Lt) in I.
      assert (If : In f (fieldsOf M t)) by (destruct I as (a & b & Q & _); rewrite Q; apply in_elt). destruct (fieldCode_cases (typeUnmarshaler k E G M) params (mtype f) (Lt f If)) as [(Rs & Q)|(Nr & Q)]; [congruence|].
      apply (Step (mtype f)); [econstructor; eassumption|congruence].
    - intros Nn u Su C. destruct r as [c|]; [|congruence]. inversion Su as [x|x y z N Sy]; subst.
      + destruct C as (T & ET & Bk & Ck). kind ET Bk H. destruct (tkind T) as [| | | | | |[]|e|e| |kt e|fs|]; try contradiction; discriminate.
      + destruct (typeUnmarshaler_down _ _ _ H _ N) as (c' & D). destruct (IH _ _ (needs_u_lt _ _ N) D) as (_ & B). exact (B ltac:(discriminate) u Sy C).
  Qed.
  Lemma C60_unmarshal_lem t : t < length (types E) ->
    (loops (needs_u E G M) t -> forall fuel c, typeUnmarshaler fuel E G M t <> Ok (Some c)) /\
    (~ loops (needs_u E G M) t -> exists r, Unmarshaler E G M t = Ok r /\ (r = None <-> exists u, star (needs_u E G M) t u /\ codeless_u E M u)).
  Proof.
    intro Lt. split; [intros L fuel c; apply typeUnmarshaler_loops; exact L|]. intro NL. unfold Unmarshaler. destruct (typeUnmarshaler (S (length (types E))) E G M t) as [r| |] eqn:D.
    - exists r. split; auto. destruct (typeUnmarshaler_none _ _ _ Lt D) as (A & B). split; auto. intros (u & Su & C). destruct r; auto. exfalso. exact (B ltac:(discriminate) u Su C).
    - destruct (typeUnmarshaler_nopanic _ _ D).
    - exfalso. apply NL. destruct (typeUnmarshaler_run _ _ D) as (l & L & C). apply (run_loops _ (length (types E)) t l); auto. intros a b. apply needs_u_lt.
  Qed.
  Lemma struct_ucode k t t' fs : typeUnmarshaler (S k) E G M t = Ok (Some (UStruct t' fs)) -> t' = t /\ ucoded (typeUnmarshaler k E G M) E (headed t) fs.
  Proof.
    intro H. rewrite typeUnmarshaler_S in H. destruct (typeOf E t) as [T|]; [|discriminate]. destruct (isTime M t); [discriminate|]. destruct (isDuration M t); [discriminate|]. destruct (isNodeU (tptr T)); [discriminate|].
    destruct (isJSONU (tptr T)); [discriminate|]. destruct (isTextU (tptr T)); [discriminate|]. destruct (tkind T) as [| | | | | |[]|e|e| |kt e|l|]; try discriminate; try (destruct (typeUnmarshaler k E G M e) as [[c'|]| |]; discriminate).
    destruct (ufold (typeUnmarshaler k E G M) E (headed t) UNil) as [[r|]| |] eqn:A; try discriminate. cbn [bind option_map] in H. injection H as <- <-. split; auto. destruct (ufold_coded _ _ _ _ _ A) as (r' & C & ->). exact C.
  Qed.
  Lemma usesR_idle fuel t c : typeUnmarshaler fuel E G M t = Ok (Some c) -> (usesR c = false <-> idle E G M t).
  Proof.
    intro H. destruct fuel as [|k]; [discriminate|]. pose proof H as H0. rewrite typeUnmarshaler_S in H. destruct (typeOf E t) as [T|] eqn:ET; [|discriminate].
    assert (Not : usesR c = true -> (isTime M t = true \/ isDuration M t = true \/ isNodeU (tptr T) = false /\ (~ no_unmarshaler (tptr T) \/ forall fs, tkind T <> KStruct fs)) -> usesR c = false <-> idle E G M t).
    { intros -> A. split; [discriminate|]. intros (T' & ET' & N1 & N2 & N3). rewrite ET in ET'. injection ET' as <-. destruct A as [A|[A|(A & B)]]; try congruence. destruct N3 as [N3|(N3 & (fs & K) & _)]; [congruence|]. destruct B as [B|B]; [contradiction|destruct (B fs K)]. }
    destruct (isTime M t) eqn:Ti; [injection H as <-; apply Not; auto|]. destruct (isDuration M t) eqn:Du; [injection H as <-; apply Not; auto|].
    destruct (isNodeU (tptr T)) eqn:Nu; [injection H as <-; split; [|reflexivity]; intros _; exists T; auto|].
    destruct (isJSONU (tptr T)) eqn:Ju; [injection H as <-; apply Not; auto; right; right; split; auto; left; intros (A & B & C); congruence|].
    destruct (isTextU (tptr T)) eqn:Tu; [injection H as <-; apply Not; auto; right; right; split; auto; left; intros (A & B & C); congruence|].
    assert (Bk : no_unmarshaler (tptr T)) by (split; auto). assert (Not' : usesR c = true -> (forall fs, tkind T <> KStruct fs) -> usesR c = false <-> idle E G M t) by (intros; apply Not; auto).
    destruct (tkind T) as [| | | | | |[]|e|e| |kt e|fs|] eqn:K; try discriminate; try (injection H as <-; apply Not'; [reflexivity|discriminate]);
      try (destruct (typeUnmarshaler k E G M e) as [[c'|]| |]; try discriminate; injection H as <-; apply Not'; [reflexivity|discriminate]).
    destruct (ufold (typeUnmarshaler k E G M) E (headed t) UNil) as [[r|]| |]; try discriminate. injection H as <-. destruct (struct_ucode _ _ _ _ H0) as (_ & C).
    assert (Kd : kindOf E t = Some (KStruct fs)) by (rewrite (typeOf_kindOf _ _ _ ET), K; reflexivity). pose proof (struct_fields t fs Kd) as Lt. split.
    - intro U. destruct r; [|discriminate]. exists T. split; auto. split; auto. split; auto. right. split; auto. split; [eauto|]. intros name params f Hd. apply (headed_heads t name params f Lt) in Hd. inversion C as [E1|]. rewrite <- E1 in Hd. destruct Hd.
    - intros (T' & ET' & _ & _ & [A|(_ & _ & A)]); [congruence|]. inversion C as [E1|name params f cs c r' Fc C' E1]; subst; [reflexivity|]. exfalso. apply (A name params f). apply (headed_heads t name params f Lt). rewrite <- E1. left. reflexivity.
  Qed.
  Lemma usesR_true fuel t c : typeUnmarshaler fuel E G M t = Ok (Some c) -> (usesR c = true <-> ~ idle E G M t).
  Proof. intro H. rewrite <- (usesR_idle _ _ _ H). destruct (usesR c); split; congruence. Qed.
  Lemma keyOf_good k : match keyOf E k with MOther => false | _ => true end = true <-> k = tString \/ kindOf E k = Some (KIface false).
  Proof.
    unfold keyOf, kindOf. destruct (Nat.eqb_spec k tString) as [->|Ne]; [split; auto|]. destruct (typeOf E k) as [T|]; cbn [option_map].
    - destruct (tkind T) as [| | | | | |[]| | | | | |]; (split; [discriminate|intros [?|?]; [contradiction|discriminate]]) || (split; auto).
    - split; [discriminate|]. intros [?|?]; [contradiction|discriminate].
  Qed.
  Lemma ucoded_compiles gen : forall cs fs, ucoded gen E cs fs ->
    (compilesUF fs = true <-> forall name params f, In (name, params, f) cs -> name_raw name /\ exists c, fieldCode gen E params (mtype f) = Ok (Some c) /\ compilesU c = true /\ usesR c = true).
  Proof.
    induction 1 as [|name params f cs c r Fc C IH]; cbn [compilesUF]; [split; [intros _ ? ? ? []|reflexivity]|]. rewrite !andb_true_iff, IH, goodRaw_iff. split.
    - intros (((A & B) & D) & F) n p g [Q|I]; [injection Q as <- <- <-|apply F; exact I]. eauto 6.
    - intro H. destruct (H name params f (or_introl eq_refl)) as (A & c' & Fc' & B & D). rewrite Fc in Fc'. injection Fc' as <-. (split; [split; [split|]|]; auto); intros; eapply H; right; eassumption.
  Qed.
  Lemma ucoded_code gen cs fs name params f : ucoded gen E cs fs -> In (name, params, f) cs -> exists c, fieldCode gen E params (mtype f) = Ok (Some c).
  Proof. induction 1; intros I; [destruct I|]. destruct I as [Q|I]; [injection Q as <- <- <-; eauto|auto]. Qed.
  Lemma typeUnmarshaler_compiles : forall fuel t c, t < length (types E) -> typeUnmarshaler fuel E G M t = Ok (Some c) -> (compilesU c = true <-> forall u, star (needs_u E G M) t u -> correct_go_u E G M u).
  Proof.
    induction fuel as [|k IH]; intros t c Lt H; [discriminate|]. pose proof H as H0. rewrite typeUnmarshaler_S in H. destruct (typeOf E t) as [T|] eqn:ET; [|discriminate].
    assert (Split : forall R : Prop, (R <-> correct_go_u E G M t /\ forall q, needs_u E G M t q -> forall p, star (needs_u E G M) q p -> correct_go_u E G M p) -> (R <-> forall p, star (needs_u E G M) t p -> correct_go_u E G M p)).
    { intros R HR. rewrite HR. split.
      - intros (A & B) p Sp. inversion Sp; subst; eauto.
      - intro A. split; [apply A; constructor|]. intros q N p Sp. apply A. econstructor; eassumption. }
    apply Split. clear Split.
    assert (Leaf : forall R : Prop, (R <-> correct_go_u E G M t) -> ~ by_kind_u M t T -> (R <-> correct_go_u E G M t /\ forall q, needs_u E G M t q -> forall p, star (needs_u E G M) q p -> correct_go_u E G M p)).
    { intros R HR Nb. rewrite HR. split; [|intros (A & _); exact A]. intro A. split; auto. intros q N. exfalso. apply Nb. inversion N; subst; congruence. }
    assert (Here : isTime M t = false -> isDuration M t = false -> correct_go_u E G M t <-> isNodeU (tptr T) = false /\ (no_unmarshaler (tptr T) -> match tkind T with
      | KIface _ => False | KMap k e => (k = tString \/ kindOf E k = Some (KIface false)) /\ ~ idle E G M e | KSlice e | KPtr e => ~ idle E G M e
      | KStruct _ => forall name params f, heads E G (fieldsOf M t) name params f -> name_raw name /\ (raw_string E params (mtype f) \/ ~ idle E G M (mtype f))
      | _ => True end)).
    { intros T1 T2. unfold correct_go_u. rewrite T1, T2. split; [intros [A|(_ & A)]; [discriminate|exact (A T ET)]|]. intro A. right. split; auto. intros T' ET'. rewrite ET in ET'. injection ET' as <-. exact A. }
    destruct (isTime M t) eqn:Ti; [injection H as <-; apply Leaf; [split; auto; left; exact Ti|intros (A & _); congruence]|].
    destruct (isDuration M t) eqn:Du; [injection H as <-; apply Leaf; [split; [discriminate|intros [A|(A & _)]; congruence]|intros (_ & A & _); congruence]|].
    specialize (Here eq_refl eq_refl).
    destruct (isNodeU (tptr T)) eqn:Nu; [injection H as <-; apply Leaf; [rewrite Here; split; [discriminate|intros (A & _); discriminate]|intros (_ & _ & A & _); congruence]|].
    destruct (isJSONU (tptr T)) eqn:Ju; [injection H as <-; apply Leaf; [rewrite Here; split; auto; intros _; split; auto; intros (_ & A & _); congruence|intros (_ & _ & _ & A & _); congruence]|].
    destruct (isTextU (tptr T)) eqn:Tu; [injection H as <-; apply Leaf; [rewrite Here; split; auto; intros _; split; auto; intros (_ & _ & A); congruence|intros (_ & _ & _ & _ & A); congruence]|].
    clear Leaf. assert (Nm : no_unmarshaler (tptr T)) by (split; auto). assert (Bk : by_kind_u M t T) by (split; auto).
    assert (Here' : correct_go_u E G M t <-> match tkind T with
      | KIface _ => False | KMap k e => (k = tString \/ kindOf E k = Some (KIface false)) /\ ~ idle E G M e | KSlice e | KPtr e => ~ idle E G M e
      | KStruct _ => forall name params f, heads E G (fieldsOf M t) name params f -> name_raw name /\ (raw_string E params (mtype f) \/ ~ idle E G M (mtype f))
      | _ => True end) by (rewrite Here; split; [intros (_ & A); exact (A Nm)|intro A; split; [reflexivity|intros _; exact A]]).
    clear Here. rewrite Here'. clear Here'.
    assert (Cases : forall q, needs_u E G M t q -> match tkind T with KPtr x | KSlice x | KMap _ x => x = q | KStruct _ => exists name params f, heads E G (fieldsOf M t) name params f /\ ~ raw_string E params (mtype f) /\ q = mtype f | _ => False end).
    { intros q N. inversion N as [t0 T0 e0 ET0 Bk0 Ke|t0 T0 fs name params f ET0 Bk0 K0 Hd Nr]; subst; assert (T0 = T) as -> by congruence; [destruct (tkind T); auto; contradiction|]. rewrite K0. eauto 6. }
    destruct (tkind T) as [| | | | | |[]|e|e| |kt e|fs|] eqn:K; try discriminate;
      try (injection H as <-; cbn [compilesU]; split; auto; intros _; split; auto; intros q N; destruct (Cases q N)).
    - injection H as <-. cbn [compilesU]. split; [discriminate|]. intros ([] & _).
    - assert (N : needs_u E G M t e) by (eapply nu_elem; [exact ET|exact Bk|rewrite K; reflexivity]). destruct (typeUnmarshaler k E G M e) as [[c'|]| |] eqn:D; try discriminate. injection H as <-. cbn [compilesU].
      rewrite andb_true_iff, (IH _ _ (needs_u_lt _ _ N) D), (usesR_true _ _ _ D). split; [intros (A & B); split; auto; intros q Nq; rewrite <- (Cases q Nq); exact A|intros (A & B); split; [exact (B _ N)|exact A]].
    - assert (N : needs_u E G M t e) by (eapply nu_elem; [exact ET|exact Bk|rewrite K; reflexivity]). destruct (typeUnmarshaler k E G M e) as [[c'|]| |] eqn:D; try discriminate. injection H as <-. cbn [compilesU].
      rewrite andb_true_iff, (IH _ _ (needs_u_lt _ _ N) D), (usesR_true _ _ _ D). split; [intros (A & B); split; auto; intros q Nq; rewrite <- (Cases q Nq); exact A|intros (A & B); split; [exact (B _ N)|exact A]].
    - assert (N : needs_u E G M t e) by (eapply nu_elem; [exact ET|exact Bk|rewrite K; reflexivity]). destruct (typeUnmarshaler k E G M e) as [[c'|]| |] eqn:D; try discriminate. injection H as <-. cbn [compilesU].
      rewrite !andb_true_iff, keyOf_good, (IH _ _ (needs_u_lt _ _ N) D), (usesR_true _ _ _ D). split; [intros ((A & B) & C); split; auto; intros q Nq; rewrite <- (Cases q Nq); exact B|intros ((A & B) & C); split; [split; [exact A|exact (C _ N)]|exact B]].
    - destruct (ufold (typeUnmarshaler k E G M) E (headed t) UNil) as [[r|]| |]; try discriminate. injection H as <-. destruct (struct_ucode _ _ _ _ H0) as (_ & C). cbn [compilesU].
      assert (Kd : kindOf E t = Some (KStruct fs)) by (rewrite (typeOf_kindOf _ _ _ ET), K; reflexivity). pose proof (struct_fields t fs Kd) as Lf. rewrite (ucoded_compiles _ _ _ C).
      assert (If : forall name params f, heads E G (fieldsOf M t) name params f -> In f (fieldsOf M t)) by (intros name params f (a & b & Q & _); rewrite Q; apply in_elt).
      split.
      + intro A. split.
        * intros name params f Hd. pose proof Hd as I. apply (headed_heads t name params f Lf) in I. destruct (A _ _ _ I) as (Gn & c & Fc & Cc & U). split; auto.
          destruct (fieldCode_cases (typeUnmarshaler k E G M) params (mtype f) (Lf f (If _ _ _ Hd))) as [(Rs & Q)|(Nr & Q)]; [auto|]. right. rewrite Q in Fc. apply (usesR_true _ _ _ Fc). exact U.
        * intros q Nq. destruct (Cases q Nq) as (name & params & f & Hd & Nr & ->). pose proof Hd as I. apply (headed_heads t name params f Lf) in I. destruct (A _ _ _ I) as (Gn & c & Fc & Cc & U).
          destruct (fieldCode_cases (typeUnmarshaler k E G M) params (mtype f) (Lf f (If _ _ _ Hd))) as [(Rs & Q)|(_ & Q)]; [contradiction|]. rewrite Q in Fc. apply (IH _ _ (Lf f (If _ _ _ Hd)) Fc). exact Cc.
      + intros (A & B) name params f I. destruct (ucoded_code _ _ _ _ _ _ C I) as (c & Fc). apply (headed_heads t name params f Lf) in I. destruct (A _ _ _ I) as (Gn & Ri). split; auto. exists c. split; auto.
        destruct (fieldCode_cases (typeUnmarshaler k E G M) params (mtype f) (Lf f (If _ _ _ I))) as [(Rs & Q)|(Nr & Q)]; rewrite Q in Fc; [injection Fc as <-; auto|]. split.
        * apply (IH _ _ (Lf f (If _ _ _ I)) Fc). apply B. econstructor; eassumption.
        * apply (usesR_true _ _ _ Fc). destruct Ri as [Ri|Ri]; [contradiction|exact Ri].
  Qed.
  Lemma C60_compiles_u_lem t c : t < length (types E) -> Unmarshaler E G M t = Ok (Some c) ->
    (compilesUnmarshaler M t c = true <-> hasUnmarshal M t = false /\ ~ idle E G M t /\ (forall T e, typeOf E t = Some T -> by_kind_u M t T -> tkind T <> KPtr e) /\ forall u, star (needs_u E G M) t u -> correct_go_u E G M u).
  Proof.
    intros Lt H. unfold Unmarshaler in H. rewrite <- (typeUnmarshaler_compiles _ _ _ Lt H), <- (usesR_true _ _ _ H). unfold compilesUnmarshaler. rewrite !andb_true_iff, negb_true_iff.
    assert (Pt : match c with UPtr _ _ => false | _ => true end = true <-> forall T e, typeOf E t = Some T -> by_kind_u M t T -> tkind T <> KPtr e).
    { rewrite typeUnmarshaler_S in H. destruct (typeOf E t) as [T|] eqn:ET; [|discriminate]. split.
      - intros A T' e ET' (B1 & B2 & B3 & B4 & B5) K. injection ET' as <-. rewrite B1, B2, B3, B4, B5, K in H. destruct (typeUnmarshaler (length (types E)) E G M e) as [[c'|]| |]; try discriminate. injection H as <-. discriminate.
      - intro A. destruct (methods_u t T) as [Q|[Q|[(Q1 & Q2)|[(Q1 & Q2 & Q3)|[(Q1 & Q2 & Q3 & Q4)|(Q1 & Q2 & Q3 & Q4 & Q5)]]]]]; [|rewrite ?Q, ?Q1, ?Q2, ?Q3, ?Q4, ?Q5 in H; injection H as <-; reflexivity..].
        pose proof (A T) as A'. specialize (fun e => A' e eq_refl Q) as A''. destruct Q as (B1 & B2 & B3 & B4 & B5). rewrite B1, B2, B3, B4, B5 in H. destruct (tkind T) as [| | | | | |[]|e|e| |kt e|fs|]; try discriminate; try (injection H as <-; reflexivity);
          try (destruct (typeUnmarshaler (length (types E)) E G M e) as [[c'|]| |]; try discriminate; injection H as <-; reflexivity); try (destruct (A'' e eq_refl)).
        destruct (ufold (typeUnmarshaler (length (types E)) E G M) E (headed t) UNil) as [[r|]| |]; try discriminate. injection H as <-. reflexivity. }
    rewrite Pt. intuition.
  Qed.
End Read.
