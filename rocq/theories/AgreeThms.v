(* The generated AppendJSON and Marshal write the same tree (C72). *)
From Coq Require Import Permutation.
From Verif Require Import FloatSpec FmtSpec Bytes Types JsonSpec Parser Doc DocSpec Strjson Float Num Iface IfaceSpec Options Codec CodecSpec DecodeSpec RoundSpec CodecMerge CodecBase CodecEnc TreeSpec TreeThms TreeDet GoLitSpec Gen GenSpec OptSpec OptThms GenFields GenApp AgreeSpec.
Local Open Scope nat_scope.

Scheme shown_mind := Minimality for shown Sort Prop
  with shown_kind_mind := Minimality for shown_kind Sort Prop
  with shown_each_mind := Minimality for shown_each Sort Prop
  with shown_entries_mind := Minimality for shown_entries Sort Prop
  with shown_fields_mind := Minimality for shown_fields Sort Prop.
Combined Scheme shown_mutind from shown_mind, shown_kind_mind, shown_each_mind, shown_entries_mind, shown_fields_mind.

Lemma agreeable_inside E G M v x : agreeable E G M v -> inside v x -> agreeable E G M x.
Proof.
  intros (A & B & C) I. split; [|split].
  - intros f s s' If. eapply A, inside_trans; eassumption.
  - intros m Im. eapply B, inside_trans; eassumption.
  - intros u l name params f Il. eapply C, inside_trans; eassumption.
Qed.
Lemma nth_typed E (fs : list sfield) : forall i l f x, nth_error fs i = Some f -> nth_error l i = Some x -> Forall2 (fun f x => typed E (ftype f) x) fs l -> typed E (ftype f) x.
Proof.
  induction fs as [|g fs IH]; intros [|i] l f x H; cbn in H; try discriminate; intros N F; inversion F; subst; cbn in N.
  - congruence.
  - eapply IH; eassumption.
Qed.
Lemma walk_typed E t p u : walks E t p u -> forall v x, typed E t v -> reaches v p x -> typed E u x.
Proof.
  induction 1 as [|t fs i f path u K N _ IH|t e path u K _ IH]; intros v x Tv R; inversion R; subst; auto; try lia.
  - inversion Tv as [| | | | | | | | | | | | | |? gs ? K' F|]; subst; try congruence. assert (gs = fs) by congruence. subst.
    match goal with A : Z.of_nat _ = Z.of_nat _ |- _ => apply Nat2Z.inj in A; subst end.
    eapply IH; [|eassumption]. eapply nth_typed; eassumption.
  - inversion Tv as [| | | | | | | |? ? ? K'| | | | | | |]; subst. eapply IH; [|eassumption]. congruence.
Qed.

(* the members, and nothing where a field is left out *)
Fixpoint members (os : list (option (bytes * jval))) : list (bytes * jval) := match os with [] => [] | Some m :: r => m :: members r | None :: r => members r end.
Lemma members_perm a b : Permutation a b -> Permutation (members a) (members b).
Proof.
  induction 1 as [|[m|] a b _ IH|[m|] [n|] a|a b c _ IH1 _ IH2]; cbn; try constructor; auto; try apply Permutation_refl.
  eapply Permutation_trans; eassumption.
Qed.

Section Agree.
  Variables (E : env) (G : gopts) (M : genv) (t0 : tid).
  Hypotheses (UM : no_methods E G M t0) (PO : paths_ok E M) (SF : same_fields E G M t0).
  Definition below (t : tid) : Prop := exists raw, star (needs E G M) (t0, false) (t, raw).
  Lemma NM t T : below t -> typeOf E t = Some T -> no_marshaler (tmeth T).
  Proof. intros (raw & S) ET. exact (proj1 (UM _ _ _ S ET)). Qed.
  Lemma NO t T name : below t -> typeOf E t = Some T -> hasOmit (tmeth T) name = false /\ hasOmit (tptr T) name = false.
  Proof. intros (raw & S) ET. exact (proj2 (UM _ _ _ S ET) name). Qed.
  Definition agrees (t : tid) (v : gv) (j : jval) : Prop :=
    forall addr h j', below t -> typed E t v -> agreeable E G M v -> ~ hinted h hintHTML -> ~ hinted h hintRaw -> tree E defaultOptions addr h t v j' -> same j j'.
  Definition agrees_kind (t : tid) (k : kind) (v : gv) (j : jval) : Prop :=
    forall addr h T j', typeOf E t = Some T -> tkind T = k -> below t -> typed E t v -> agreeable E G M v -> ~ hinted h hintHTML -> ~ hinted h hintRaw ->
    kind_tree E defaultOptions addr h t k v j' -> same j j'.
  Definition agrees_each (e : tid) (l : list gv) (js : list jval) : Prop :=
    forall addr h js', below e -> Forall (typed E e) l -> Forall (agreeable E G M) l -> ~ hinted h hintHTML -> ~ hinted h hintRaw ->
    each_tree E defaultOptions addr h e l js' -> Forall2 same js js'.
  (* a field that is left out, or the member it becomes *)
  Definition part (v : gv) (c : bytes * list bytes * mfield) (o : option (bytes * jval)) : Prop :=
    match o with
    | None => (forall x, ~ reaches v (mpath (snd c)) x) \/ exists x, reaches v (mpath (snd c)) x /\ left_out E G (snd (fst c)) (mtype (snd c)) x
    | Some (k, j) => k = fst (fst c) /\ exists x, reaches v (mpath (snd c)) x /\ ~ left_out E G (snd (fst c)) (mtype (snd c)) x /\ shown E G M (mtype (snd c)) x j /\ agrees (mtype (snd c)) x j
    end.
  Definition agrees_fields (v : gv) (cs : list (bytes * list bytes * mfield)) (ms : list (bytes * jval)) : Prop := exists os, ms = members os /\ Forall2 (part v) cs os.

  Lemma gsnoc {A} (R : A -> A -> Prop) a b c : star R a b -> R b c -> star R a c.
  Proof. induction 1; intro H'; [econstructor; [exact H'|constructor]|econstructor; eauto]. Qed.
  Lemma below_part t T k e : typeOf E t = Some T -> tkind T = k -> (k = KPtr e \/ k = KSlice e) -> below t -> below e.
  Proof.
    intros ET K C B. pose proof (NM _ _ B ET). destruct B as (raw & S). exists raw. eapply gsnoc; [exact S|]. eapply nd_part; [exact ET|assumption|]. rewrite K. destruct C as [->| ->]; left; reflexivity.
  Qed.
  Lemma silent_all t : below t -> silent E defaultOptions t.
  Proof.
    intros B T ET. split; [apply (NO t T _ B ET)|]. destruct (tkind T) eqn:K; try (apply (NO t T _ B ET)). intros X EX.
    eapply (proj1 (NO _ X _ (below_part _ _ _ _ ET K (or_introl eq_refl) B) EX)).
  Qed.
  Lemma no_ask addr t v b : below t -> ~ asks E defaultOptions addr t v b.
  Proof.
    intros B A. pose proof (silent_all t B) as Si. destruct A as [t T v b ET A _|t T e X ET _ K EX A|t T e X x b ET _ K EX A|t T v b ET _ _ A].
    - destruct (Si T ET). congruence.
    - destruct (Si T ET) as (_ & Hx). rewrite K in Hx. rewrite (Hx X EX) in A. discriminate.
    - destruct (Si T ET) as (_ & Hx). rewrite K in Hx. rewrite (Hx X EX) in A. discriminate.
    - destruct (NO t T (oOmitMethod defaultOptions) B ET). congruence.
  Qed.

  (* What one leaves out is left out by the other. *)
  Lemma left_dropped addr c name params f x : below (mtype f) -> alike E c (name, params, f) -> typed E (mtype f) x -> (x = VPtr None -> In omitEmpty params) ->
    left_out E G params (mtype f) x -> dropped E defaultOptions addr c x.
  Proof.
    intros B (Kn & Ki & Kt & Om & _ & _ & Ns) Tx Np L. cbn [fst snd] in *.
    assert (Oi : In omitEmpty params) by (destruct L as [->|[? _]]; auto).
    assert (Oc : omitempty c) by (apply Om; exact Oi).
    apply dr_value; [exact Oc| |].
    - intros (T & fs & ET & K & _). apply (Ns Oc fs). unfold kindOf. rewrite ET. cbn. congruence.
    - rewrite Kt. destruct L as [->|[_ V]].
      + inversion Tx; subst. eapply em_ptr; [apply silent_all; exact B|eassumption].
      + inversion V as [t T y ET A Co|t T y ET Ho Na Ni Ge]; subst; [destruct (NO _ T (gOmit G) B ET); congruence|].
        assert (Kd : kindOf E (mtype f) = Some (tkind T)) by (unfold kindOf; rewrite ET; reflexivity).
        destruct Ge; inversion Tx; subst; try (econstructor; first [apply silent_all; exact B|eassumption]; fail).
        * match goal with A : kindOf E (mtype f) = Some (KIface ?m) |- _ => destruct m end; [exfalso; apply Ni; congruence|]. apply em_iface; [apply silent_all; exact B|assumption].
        * exfalso. eapply Na. rewrite Kd in *. match goal with A : Some (tkind T) = Some _ |- _ => injection A as ->; reflexivity end.
  Qed.
  Lemma dropped_left addr c name params f x j : below (mtype f) -> alike E c (name, params, f) -> shown E G M (mtype f) x j -> dropped E defaultOptions addr c x -> left_out E G params (mtype f) x.
  Proof.
    intros B (Kn & Ki & Kt & Om & _ & _ & Ns) Sh D. cbn [fst snd] in *.
    assert (Nf : omitempty c -> ~ fieldwise E (ctype c)) by (intros Oc (T & fs & ET & K & _); apply (Ns Oc fs); unfold kindOf; rewrite ET; cbn; congruence).
    destruct D as [c x Oc _ Em|c x Oc F _|c x cs Oc F]; [|destruct (Nf Oc F)|destruct (Nf Oc F)].
    right. split; [apply Om; exact Oc|].
    rewrite Kt in Em.
    inversion Sh as [t T v b w j' ET A _ _|t T v w j' ET _ A _ _|t T v w ET _ _ A _|t T v j' ET _ Sk]; subst; try (destruct (NM _ _ B ET) as (? & ? & ?); congruence).
    apply va_value with T; [exact ET|apply (NO _ _ (gOmit G) B ET)|intros n e K; rewrite K in Sk; inversion Sk; subst; match goal with A : _ \/ _ |- _ => destruct A; discriminate end|intros K; rewrite K in Sk; inversion Sk; subst; match goal with A : _ \/ _ |- _ => destruct A; discriminate end|].
    assert (Kd : kindOf E (mtype f) = Some (tkind T)) by (unfold kindOf; rewrite ET; reflexivity).
    inversion Em; subst; try (constructor; assumption); try constructor.
    - exfalso. eapply (no_ask _ _ _ _ B); eassumption.
    - assert (K : tkind T = KArray (length l) e) by congruence. rewrite K in Sk. inversion Sk; subst; match goal with A : _ \/ _ |- _ => destruct A; discriminate end.
    - exfalso. match goal with A : _ \/ _ |- _ => destruct A as [A|A]; rewrite Kd in A; injection A as A; rewrite A in Sk; inversion Sk; subst; match goal with B : _ \/ _ |- _ => destruct B; discriminate end end.
  Qed.

  Lemma fields_align u fs l addr : kindOf E u = Some (KStruct fs) -> below u -> typed E u (VStruct l) -> agreeable E G M (VStruct l) ->
    forall cs gs, Forall2 (alike E) cs gs -> (forall name params f, In (name, params, f) gs -> leads G (fieldsOf M u) name params f) ->
    forall os ms, Forall2 (part (VStruct l)) gs os -> field_trees E defaultOptions addr (VStruct l) cs ms ->
    Forall2 (fun a b => fst a = fst b /\ same (snd a) (snd b)) (members os) ms.
  Proof.
    intros K Bu Tv Ag. induction 1 as [|c [[name params] f] cs gs Al _ IH]; intros Le os ms Po Ft.
    - inversion Po; subst. inversion Ft; subst. constructor.
    - inversion Po as [|? o ? os' P Po']; subst. specialize (IH (fun n p f' I => Le n p f' (or_intror I)) os').
      assert (Lf : leads G (fieldsOf M u) name params f) by (apply Le; left; reflexivity).
      pose proof Al as (Kn & Ki & Kt & Om & Hh & Hr & Ns). cbn [fst snd] in *.
      assert (If : In f (fieldsOf M u)) by (destruct Lf as (a & b & -> & _); apply in_or_app; right; left; reflexivity).
      destruct (PO u fs f K If) as (W & _).
      assert (Tx : forall x, reaches (VStruct l) (mpath f) x -> typed E (mtype f) x) by (intros x R; eapply walk_typed; eassumption).
      assert (Bf : below (mtype f)).
      { pose proof (fun U => NM u U Bu) as NMu. destruct Bu as (raw & S). eexists. eapply gsnoc; [exact S|]. unfold kindOf in K. destruct (typeOf E u) as [U|] eqn:EU; [|discriminate]. injection K as K. eapply nd_field; [exact EU|exact (NMu _ eq_refl)|exact K|exact Lf]. }
      destruct o as [[k j]|]; cbn in P |- *.
      + destruct P as (-> & x & R & Nl & Sh & A).
        inversion Ft as [|? ? ? ? ? ? U Ft'|? ? ? ? y ? ? R' D Ft'|? ? ? ? y j' ? ms' R' D Tr Ft']; subst.
        * exfalso. apply (U x). rewrite Ki. exact R.
        * exfalso. rewrite Ki in R'. rewrite (reaches_one _ _ _ R' _ R) in D. apply Nl. eapply dropped_left; eassumption.
        * constructor; [|exact (IH _ Po' Ft')]. rewrite Ki in R'. rewrite (reaches_one _ _ _ R' _ R) in Tr. cbn. split; [congruence|]. rewrite Kt in Tr.
          eapply A; [exact Bf|exact (Tx _ R)|eapply agreeable_inside; [exact Ag|eapply reaches_inside; exact R]|exact Hh|exact Hr|exact Tr].
      + inversion Ft as [|? ? ? ? ? ? U Ft'|? ? ? ? y ? ? R' D Ft'|? ? ? ? y j' ? ms' R' D Tr Ft']; subst; try (exact (IH _ Po' Ft')).
        exfalso. rewrite Ki in R'. destruct P as [U|(x & R & L)]; [exact (U _ R')|]. rewrite (reaches_one _ _ _ R' _ R) in D. apply D.
        eapply left_dropped; [exact Bf|exact Al|exact (Tx _ R)| |exact L]. intros ->. destruct Ag as (_ & _ & Ni). eapply Ni; [constructor|exact Tv|exact Lf|exact R].
  Qed.

  Lemma agree_all :
    (forall t v j, shown E G M t v j -> agrees t v j) /\ (forall t k v j, shown_kind E G M t k v j -> agrees_kind t k v j) /\
    (forall e l js, shown_each E G M e l js -> agrees_each e l js) /\ (forall e m ms, shown_entries E G M e m ms -> True) /\
    (forall v cs ms, shown_fields E G M v cs ms -> agrees_fields v cs ms).
  Proof.
    apply shown_mutind; try (intros; exact I).
    - intros t T v b w j ET A _ _ addr h j' B. exfalso. destruct (NM _ _ B ET) as (? & ? & ?). congruence.
    - intros t T v w j ET _ A _ _ addr h j' B. exfalso. destruct (NM _ _ B ET) as (? & ? & ?). congruence.
    - intros t T v w ET _ _ A _ addr h j' B. exfalso. destruct (NM _ _ B ET) as (? & ? & ?). congruence.
    - intros t T v j ET _ _ IH addr h j' Bt Tv Ag Hh Hr Tr.
      inversion Tr; subst; try (match goal with B : typeOf E t = Some ?X |- _ => lazymatch X with T => fail | _ => idtac end; destruct (NM _ _ Bt B) as (? & ? & ?); rewrite ET in B; injection B as <- end); try congruence; eapply IH; eauto.
    - intros t addr h T j' _ _ _ _ _ _ _ Kt. inversion Kt; subst; try (match goal with A : _ \/ _ |- _ => destruct A; discriminate end). constructor.
    - intros t addr h T j' _ _ _ _ _ _ _ Kt. inversion Kt; subst; try (match goal with A : _ \/ _ |- _ => destruct A; discriminate end). constructor.
    - intros t bits z addr h T j' _ _ _ _ _ _ _ Kt. inversion Kt; subst; try (match goal with A : _ \/ _ |- _ => destruct A; discriminate end). constructor.
    - intros t bits z addr h T j' _ _ _ _ _ _ _ Kt. inversion Kt; subst; try (match goal with A : _ \/ _ |- _ => destruct A; discriminate end). constructor.
    - intros t k f s Hk F64 addr h T j' _ _ _ _ (O1 & _) _ _ Kt.
      assert (W : exists s', j' = JNum s' /\ writes E f s') by (inversion Kt; subst; try (destruct Hk; discriminate); eauto).
      destruct W as (s' & -> & (_ & _ & F32)). rewrite (O1 f s s' (ins_here _) F64 F32). constructor.
    - intros t s w Es addr h T j' _ _ _ _ _ Hh Hr Kt. inversion Kt; subst; try contradiction; try (match goal with A : _ \/ _ |- _ => destruct A; discriminate end).
      match goal with A : Escaped s false false = Ok ?x |- _ => rewrite Es in A; injection A as <- end. constructor.
    - intros t e addr h T j' _ _ _ _ _ _ _ Kt. inversion Kt; subst; try (match goal with A : _ \/ _ |- _ => destruct A; discriminate end). constructor.
    - intros t e x j _ IH addr h T j' ET K Bt Tv Ag Hh Hr Kt. inversion Kt; subst; try (match goal with A : _ \/ _ |- _ => destruct A; discriminate end).
      eapply IH; [eapply below_part; [exact ET|exact K|left; reflexivity|exact Bt]| |eapply agreeable_inside; [exact Ag|repeat constructor]|exact Hh|exact Hr|eassumption].
      assert (Kd : kindOf E t = Some (KPtr e)) by (unfold kindOf; rewrite ET; cbn; congruence). inversion Tv as [| | | | | | | |? ? ? K'| | | | | | |]; subst. congruence.
    - intros t e addr h T j' _ _ _ _ _ _ _ Kt. inversion Kt; subst; try (match goal with A : _ \/ _ |- _ => destruct A; discriminate end). constructor. constructor.
    - intros t e l s js _ IH addr h T j' ET K Bt Tv Ag Hh Hr Kt. inversion Kt; subst; try (match goal with A : _ \/ _ |- _ => destruct A; discriminate end).
      constructor. eapply IH; [eapply below_part; [exact ET|exact K|right; reflexivity|exact Bt]| | |exact Hh|exact Hr|eassumption].
      + assert (Kd : kindOf E t = Some (KSlice e)) by (unfold kindOf; rewrite ET; cbn; congruence). inversion Tv; subst; congruence.
      + apply Forall_forall. intros x I. eapply agreeable_inside; [exact Ag|]. eapply ins_slice; [exact I|constructor].
    - intros t k e addr h T j' ET K Bt Tv (_ & Nm & _). exfalso. specialize (Nm None (ins_here _)). discriminate.
    - intros t k e m m' ms Pm Se _ addr h T j' ET K Bt Tv (_ & Nm & _) _ _ Kt. specialize (Nm _ (ins_here _)). injection Nm as ->.
      apply Permutation_sym, Permutation_nil in Pm. subst. inversion Se; subst. inversion Kt; subst; try (match goal with A : _ \/ _ |- _ => destruct A; discriminate end).
      match goal with A : Permutation _ [] |- _ => apply Permutation_sym, Permutation_nil in A; subst end. match goal with A : entry_trees _ _ _ _ [] _ |- _ => inversion A; subst end. econstructor; constructor.
    - intros t fs l cs ms Io _ (os & -> & Po) addr h T j' ET K Bt Tv Ag Hh Hr Kt. inversion Kt as [| | | | | | | | | | | | | | | |O addr' h' t' fs' cs2 v ms2 Sf Ft]; subst; try (match goal with A : _ \/ _ |- _ => destruct A; discriminate end).
      assert (Kd : kindOf E t = Some (KStruct fs)) by (unfold kindOf; rewrite ET; cbn; congruence).
      destruct Bt as (raw & S). destruct (SF t raw fs cs2 cs S Kd Sf Io) as (gs & Al & Pg).
      destruct (Permutation_Forall2 (Permutation_sym Pg) Po) as (os' & Po' & Pos).
      assert (F : Forall2 (fun a b => fst a = fst b /\ same (snd a) (snd b)) (members os') ms2).
      { eapply fields_align; [exact Kd|exists raw; exact S|exact Tv|exact Ag|exact Al| |exact Pos|exact Ft]. intros n p f If. apply Io. eapply Permutation_in; eassumption. }
      destruct (Permutation_Forall2 (members_perm _ _ (Permutation_sym Po')) F) as (ms3 & Pm & F3).
      eapply sm_obj; [exact F3|apply Permutation_sym; exact Pm].
    - intros e addr h js' _ _ _ _ _ Et. inversion Et; subst. constructor.
    - intros e x l j js _ IH _ IHl addr h js' Be Tl Al Hh Hr Et. inversion Et; subst. inversion Tl; subst. inversion Al; subst. constructor; [eapply IH|eapply IHl]; eauto.
    - intro v. exists []. split; [reflexivity|constructor].
    - intros v c cs ms U _ (os & -> & Po). exists (None :: os). split; [reflexivity|]. constructor; [left; exact U|exact Po].
    - intros v name params f x cs ms R L _ (os & -> & Po). exists (None :: os). split; [reflexivity|]. constructor; [right; exists x; split; [exact R|exact L]|exact Po].
    - intros v name params f x j cs ms R L Sh A _ (os & -> & Po). exists (Some (name, j) :: os). split; [reflexivity|]. constructor; [|exact Po]. split; [reflexivity|]. exists x. auto.
  Qed.
End Agree.

(* ---- structs without embedded fields ---- *)

Section Direct.
  Variables (E : env) (G : gopts).
  Lemma has_In h ps : OptSpec.has h ps = true <-> In h ps.
  Proof.
    unfold OptSpec.has. rewrite existsb_exists. split.
    - intros (x & I & B). apply bseqb_true in B. subst. exact I.
    - intro I. exists h. split; [exact I|]. apply bseqb_true. reflexivity.
  Qed.
  Lemma bits_hints ps : ~ In (str "html") ps -> ~ In (str "8bit") ps ->
    (N.land (bits ps) hintOmitempty = hintOmitempty <-> In omitEmpty ps) /\ ~ hinted (bits ps) hintHTML /\ ~ hinted (bits ps) hintRaw.
  Proof.
    intros Nh Nr. unfold bits, hinted.
    destruct (OptSpec.has (str "8bit") ps) eqn:A; [apply has_In in A; contradiction|].
    destruct (OptSpec.has (str "html") ps) eqn:B; [apply has_In in B; contradiction|].
    destruct (OptSpec.has (str "omitempty") ps) eqn:C.
    - apply has_In in C. split; [|split; vm_compute; discriminate]. split; [intros _; exact C|reflexivity].
    - split; [|split; vm_compute; discriminate]. split; [vm_compute; discriminate|]. intro I. apply has_In in I. unfold omitEmpty in I. congruence.
  Qed.
  (* One field. *)
  Lemma one_alike f m i : tidy E f -> mname m = fname f -> mexported m = fcanset f -> mpath m = [Z.of_nat i] -> mtype m = ftype f -> mlookup m (str "json") = flookup f (str "json") ->
    gTag G = str "json" -> gOnlyTagged G = false -> gForceOmit G = false -> (forall n, gMatch G n = true) -> (forall n, gName G n = n) -> (gOnlyExported G = true \/ fcanset f = true) ->
    (hidden defaultOptions f /\ parseVar G m = None) \/
    exists key h tagged params, fcanset f = true /\ parseField (oOmitEmpty defaultOptions) (fname f) (ftag f) (flookup f (oTag defaultOptions)) = Some (key, h, tagged) /\ key <> str "-" /\
      parseVar G m = Some (key, params) /\ alike E (mkC key [Z.of_nat i] (ftype f) h) (key, params, m).
  Proof.
    intros (An & Nn & Nd & Nu & Lt & Tg) Em Ex Ep Et El G1 G2 G3 G4 G5 G6.
    destruct (fcanset f) eqn:Cs.
    2:{ left. split; [left; exact Cs|]. unfold parseVar. destruct (negb (MatchField G (mname m))); [reflexivity|]. destruct G6 as [->|?]; [|discriminate]. rewrite Ex. reflexivity. }
    assert (Mf : MatchField G (mname m) = true).
    { unfold MatchField. destruct (bseqb (mname m) (str "_")) eqn:B; [apply bseqb_true in B; rewrite Em in B; discriminate (Nu B)|apply G4]. }
    assert (Pv : forall p ps, mlookup m (gTag G) = Some (join x2c (p :: ps)) -> Forall (fun q => ~ In x2c q) (p :: ps) -> p <> str "-" -> parseVar G m = Some (match p with [] => fname f | _ => p end, ps)).
    { intros p ps L Fo Np. apply C60_fields_lem. rewrite <- (app_nil_r ps). replace (match p with [] => fname f | _ => p end) with (match p with [] => match gName G (mname m) with [] => mname m | n => n end | _ => p end).
      - replace (@nil bytes) with (if gForceOmit G then [str "omitempty"] else []) by (rewrite G3; reflexivity).
        apply fp_intro; [intro B; rewrite Em in B; discriminate (Nu B)|apply G4|intros _; exact Ex|left; eexists; split; [exact L|split; [reflexivity|exact Fo]]|exact Np].
      - destruct p; [|reflexivity]. rewrite G5, Em. destruct (fname f); [contradiction|reflexivity]. }
    change (oTag defaultOptions) with (str "json"). change (oOmitEmpty defaultOptions) with false.
    destruct (flookup f (str "json")) as [v|] eqn:Lk.
    - destruct (split_exists_unique v) as (p & ps & Fo & -> & _). specialize (Lt _ eq_refl). pose proof (parseField_lem false (fname f) (ftag f) p ps Fo Lt) as Pf. cbn iota in Pf.
      destruct (Tg p ps Fo eq_refl) as (Nh & Nr & No). destruct (bits_hints ps Nh Nr) as (Ho & Hh & Hr).
      destruct (bseqb p (str "-")) eqn:Bp.
      + apply bseqb_true in Bp. subst p. left. split.
        * right. exists (bits ps), true. change (oOmitEmpty defaultOptions) with false. change (oTag defaultOptions) with (str "json"). rewrite Lk. exact Pf.
        * destruct (parseVar G m) as [[n q]|] eqn:Q; [|reflexivity]. exfalso. apply C60_fields_lem in Q. inversion Q as [p' ps' _ _ _ [(v & L & Ev & Fo')|(L & _)] Np']; subst.
          -- rewrite G1, El in L. injection L as L. destruct (split_exists_unique (join x2c (str "-" :: ps))) as (a & b & _ & _ & Un).
             pose proof (Un _ _ Fo eq_refl) as U1. pose proof (Un p' ps' Fo' L) as U2. rewrite <- U1 in U2. injection U2 as -> _. apply Np'. reflexivity.
          -- rewrite G1, El in L. discriminate.
      + assert (Np : p <> str "-") by (intros ->; vm_compute in Bp; discriminate). right.
        exists (match p with [] => fname f | _ => p end), (bits ps), true, ps. split; [reflexivity|]. split; [exact Pf|]. split; [destruct p; assumption|]. split; [apply Pv; [rewrite G1, El; reflexivity|exact Fo|exact Np]|].
        repeat split; cbn [ckey cindex ctype chints fst snd]; auto; try (apply Ho).
        intros Oc gs. apply No. apply Ho. exact Oc.
    - right. exists (fname f), 0%N, false, []. split; [reflexivity|]. split; [exact (parseField_none false (fname f) (ftag f))|]. split; [exact Nd|].
      assert (Q : parseVar G m = Some (fname f, [])).
      { apply C60_fields_lem. pose proof (fp_intro G m [] []) as Fp. rewrite G5, Em, G3, G1, El, Ex in Fp.
        replace (match fname f with [] => fname f | n => n end) with (fname f) in Fp by (destruct (fname f); reflexivity). apply Fp; auto; [intro B; discriminate (Nu B)|discriminate]. }
      split; [exact Q|]. repeat split; cbn [ckey cindex ctype chints fst snd]; auto; try (vm_compute; discriminate). intros [].
  Qed.

  (* what the generator finds *)
  Fixpoint found (l : list mfield) : list (bytes * list bytes * mfield) := match l with [] => [] | m :: r => match parseVar G m with Some np => (np, m) :: found r | None => found r end end.
  Lemma found_In l n p m : In (n, p, m) (found l) <-> In m l /\ parseVar G m = Some (n, p).
  Proof.
    induction l as [|x l IH]; cbn; [intuition|]. destruct (parseVar G x) as [[n' p']|] eqn:P; cbn; rewrite IH.
    - split; [intros [A|(A & B)]; [injection A as <- <- <-; auto|auto]|]. intros ([<-|A] & B); [left; congruence|auto].
    - split; [intros (A & B); auto|]. intros ([<-|A] & B); [congruence|auto].
  Qed.
  Lemma found_alike fs : forall i ms l, lists i fs ms -> Forall (tidy E) fs -> usual G fs -> offers_from E defaultOptions [] i fs l -> Forall2 (alike E) l (found ms).
  Proof.
    induction fs as [|f fs IH]; intros i ms l Ls Ti Us Of; inversion Ls as [|? ? ? m ms' Em Ex Ep Et El Ls']; subst.
    - inversion Of; subst. constructor.
    - inversion Ti as [|? ? Tf Ti']; subst. destruct Us as (G1 & G2 & G3 & G4 & G5 & G6).
      assert (Us' : usual G fs) by (repeat split; auto; destruct G6 as [?|A]; [auto|right; inversion A; assumption]).
      assert (G6' : gOnlyExported G = true \/ fcanset f = true) by (destruct G6 as [?|A]; [auto|right; inversion A; assumption]).
      pose proof Tf as (An & _).
      destruct (one_alike f m i Tf Em Ex Ep Et El G1 G2 G3 G4 G5 G6') as [(Hi & Pn)|(key & h & tg & params & Cs & Pf & Nk & Pv & Al)]; cbn [found].
      + rewrite Pn. destruct Hi as [Cs|(h & g & Pf)]; inversion Of; subst; try congruence; try (eapply IH; eassumption).
      + rewrite Pv. inversion Of as [|? ? ? ? ? Hi Of'|? ? ? ? ? key' h' tg' _ Pf' _ _ Of'| | |]; subst; try congruence.
        * exfalso. destruct Hi as [Cs'|(h' & g & Pf')]; [congruence|]. rewrite Pf in Pf'. congruence.
        * rewrite Pf in Pf'. injection Pf' as <- <- <-. constructor; [exact Al|]. eapply IH; eassumption.
  Qed.
  Lemma kept_all cs : forall a, NoDup (map ckey (a ++ cs)) -> forall ks, kept a cs ks -> ks = cs.
  Proof.
    induction cs as [|c cs IH]; intros a Nd ks K; inversion K as [|? ? ? ks' _ K'|? ? d r ? ? W _ _]; subst; auto.
    - f_equal. apply (IH (a ++ [c])); [rewrite <- app_assoc; exact Nd|exact K'].
    - exfalso. assert (I : In d (with_key (ckey c) a)) by (rewrite W; left; reflexivity). unfold with_key in I. apply filter_In in I. destruct I as (I & B). apply bseqb_true in B.
      rewrite map_app in Nd. cbn in Nd. apply NoDup_remove_2 in Nd. apply Nd. apply in_or_app. left. rewrite <- B. apply in_map. exact I.
  Qed.
  Lemma distinct_tail m l : distinct G (m :: l) -> distinct G l.
  Proof. intros D i j f g n ps qs A B P Q. assert (S i = S j) by (eapply D; eassumption). lia. Qed.
  Lemma found_nodup l : distinct G l -> NoDup (map (fun c => fst (fst c)) (found l)).
  Proof.
    induction l as [|m l IH]; intro D; cbn; [constructor|]. specialize (IH (distinct_tail _ _ D)). destruct (parseVar G m) as [[n p]|] eqn:P; [|exact IH]. cbn. constructor; [|exact IH].
    intro I. apply in_map_iff in I. destruct I as ([[n' p'] g] & E' & I). cbn in E'. subst n'. apply found_In in I. destruct I as (I & Q). apply In_nth_error in I. destruct I as (j & N).
    assert (0 = S j); [|discriminate]. eapply (D 0 (S j) m g n p p'); [reflexivity|exact N|apply C60_fields_lem; exact P|apply C60_fields_lem; exact Q].
  Qed.
  Lemma leads_found l n p m : distinct G l -> (leads G l n p m <-> In m l /\ parseVar G m = Some (n, p)).
  Proof.
    intro D. split.
    - intros (a & b & -> & P & _). split; [apply in_or_app; right; left; reflexivity|exact P].
    - intros (I & P). apply in_split in I. destruct I as (a & b & ->). exists a, b. split; [reflexivity|]. split; [exact P|].
      assert (Nm : nth_error (a ++ m :: b) (length a) = Some m) by (rewrite nth_error_app2, Nat.sub_diag by lia; reflexivity). split.
      + intros g ps I Q. exfalso. apply In_nth_error in I. destruct I as (j & N). assert (Lj : j < length a) by (apply nth_error_Some; congruence).
        assert (j = length a); [|lia]. eapply (D j (length a) g m); [rewrite nth_error_app1 by exact Lj; exact N|exact Nm|apply C60_fields_lem; exact Q|apply C60_fields_lem; exact P].
      + intros g ps I Q. exfalso. apply In_nth_error in I. destruct I as (j & N).
        assert (length a + S j = length a); [|lia]. eapply (D (length a + S j) (length a) g m); [|exact Nm|apply C60_fields_lem; exact Q|apply C60_fields_lem; exact P].
        rewrite nth_error_app2 by lia. replace (length a + S j - length a) with (S j) by lia. exact N.
  Qed.
End Direct.

Lemma C72_fields_lem E G M u fs cs gs : kindOf E u = Some (KStruct fs) -> lists 0 fs (fieldsOf M u) -> Forall (tidy E) fs -> usual G fs -> distinct G (fieldsOf M u) ->
  struct_fields E defaultOptions u cs -> in_order G (fieldsOf M u) gs -> alike_all E cs gs.
Proof.
  intros K Ls Ti Us D (l & Of & Kp) (Io & Nd & _). inversion Of as [? ? fs' ? K' Of']; subst. assert (fs' = fs) by congruence. subst fs'.
  pose proof (found_alike E G fs 0 _ l Ls Ti Us Of') as F.
  assert (Nk : map ckey l = map (fun c => fst (fst c)) (found G (fieldsOf M u))) by (clear - F; induction F as [|c g l gs (A & _) _ IH]; cbn; congruence).
  assert (cs = l) by (eapply (kept_all l []); [cbn; rewrite Nk; apply found_nodup; exact D|exact Kp]). subst cs.
  exists (found G (fieldsOf M u)). split; [exact F|]. apply NoDup_Permutation.
  - eapply NoDup_map_inv. apply found_nodup. exact D.
  - eapply NoDup_map_inv. exact Nd.
  - intros [[n p] m]. rewrite found_In, Io, leads_found by exact D. reflexivity.
Qed.

Lemma C72_lem E G M t v j j' : paths_ok E M -> no_methods E G M t -> same_fields E G M t -> typed E t v -> agreeable E G M v -> shown E G M t v j -> top_tree E t v j' -> same j j'.
Proof.
  intros PO UM SF Tv Ag Sh Tt. destruct (agree_all E G M t UM PO SF) as (A & _).
  assert (Bt : below E G M t t) by (exists false; constructor).
  assert (H0 : ~ hinted 0 hintHTML /\ ~ hinted 0 hintRaw) by (split; vm_compute; discriminate). destruct H0 as (Hh & Hr).
  inversion Tt as [? e x ? K Tr|? ? ? K Tr]; subst.
  - apply (A _ _ _ Sh true 0%N j' Bt Tv Ag Hh Hr). unfold kindOf in K. destruct (typeOf E t) as [T|] eqn:ET; [|discriminate]. injection K as K.
    eapply tr_kind; [exact ET|exact (NM E G M t UM _ _ Bt ET)|]. rewrite K. apply kt_ptr. exact Tr.
  - exact (A _ _ _ Sh false 0%N j' Bt Tv Ag Hh Hr Tr).
Qed.
Lemma C72_out_lem E G M t c v out out' res : wf_types E -> paths_ok E M -> ftoa_spec (ftoa E) -> walks_maps E -> methods_return E -> methods_write_json E -> embeds_structs E -> tags_json E defaultOptions ->
  names_json E G M t -> plain_keys E G M t -> no_methods E G M t -> same_fields E G M t -> typed E t v -> finite_floats v -> floats_json v -> top_ok E t v -> tops_ok E v -> agreeable E G M v ->
  Appender E G M t = Ok (Some c) -> compilesAppender M t c = true -> AppendJSON E out' (Some (t, v)) = Ok (res, None) ->
  exists w w' j j', runAppender E c out (Some v) = Ok (out ++ w, None) /\ res = out' ++ w' /\ rfc_value j w /\ rfc_value j' w' /\ same j j'.
Proof.
  intros Wf Po Fs Wm Mr Mw Es Tj Nj Pk Nm Sf Tv Ff Fj To Ts Ag Ap Co Aj.
  destruct (C69_lem E out' t v res Wf Es Wm Fs Tj Mw Tv To Ts Fj Aj) as (j' & w' & -> & R' & T').
  destruct (C61_lem E G M t c v out Wf Po Fs Wm Mr Mw Nj Pk Tv Ff Ap Co) as [(o & e & _ & (u & raw & T & x & S & ET & _ & _ & Me))|(w & j & Ru & R & Sh)].
  - intros T ET. exact (proj1 (proj1 (Nm _ _ _ (star_here _ _) ET))).
  - exfalso. destruct (Nm _ _ _ S ET) as ((A & B & D) & _). destruct Me as [(X & _)|[(_ & X & _)|(_ & _ & X & _)]]; congruence.
  - exists w, w', j, j'. split; [exact Ru|]. split; [reflexivity|]. split; [exact R|]. split; [exact R'|]. eapply C72_lem; eassumption.
Qed.
