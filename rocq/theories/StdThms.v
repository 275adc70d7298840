(* What Marshal writes and what json.Marshal writes (C77). *)
From Coq Require Import Permutation.
From Verif Require Import FloatSpec FmtSpec FmtThms Bytes Types JsonSpec StrSpec Parser Doc DocSpec Strjson Float NumSpec Num NumInt SetThms Iface IfaceSpec Options OptSpec Codec CodecSpec DecodeSpec RoundSpec CodecMerge CodecBase CodecEnc TreeSpec TreeThms TreeDet AgreeSpec AgreeThms StdSpec StdFields.
Local Open Scope nat_scope.

Section Std.
  Variables (E : env) (letter : N -> Prop).
  Hypotheses (WF : wf_types E) (SS : std_structs E letter) (ES : embeds_structs E) (FS : ftoa_spec (ftoa E)) (ML : methodless E).
  Notation D := defaultOptions.
  Definition said (t : tid) (v : gv) (j : jval) : Prop := exists m, says j m /\ std E letter t v m.
  Lemma bare t T : typeOf E t = Some T -> std_bare E t.
  Proof. intro Ty. destruct (ML _ _ Ty) as ((_ & A & B) & (_ & C & G) & _). exists T. auto. Qed.
  Lemma mute t : silent E D t.
  Proof.
    intros T Ty. destruct (ML _ _ Ty) as (_ & _ & H). split; [apply H|]. destruct (tkind T); try apply H. intros X Tx. destruct (ML _ _ Tx) as (_ & _ & G). apply G.
  Qed.
  Lemma kind_bare t k : kindOf E t = Some k -> std_bare E t.
  Proof. unfold kindOf. destruct (typeOf E t) as [T|] eqn:Ty; [|discriminate]. intros _. exact (bare _ _ Ty). Qed.
  Lemma float_value f s : writes E f s -> exists p p', s = text p' /\ shape one_sign p' /\ shape one_sign p /\ (numval p' == numval p)%Q /\ ftoa E f (useExp f 32) 32 = text p.
  Proof.
    intros (C & (g & Nw & Fg) & F). destruct (FS f g (useExp f 32) 32%Z C Nw Fg) as (p & Ep & Tp & _). unfold FormatFloat, AppendFloat in F. rewrite (bits_ok _ _ _ Nw) in F. exists p. destruct (useExp f 32).
    - destruct (clean_lem [] p Tp) as (p' & Cl & K). rewrite Ep in F. rewrite Cl in F. injection F as <-. destruct Tp as (S & _). destruct (cleaned_spec p p' S K) as (S' & V). exists p'. split; [reflexivity|]. auto.
    - rewrite Ep in F. injection F as <-. destruct Tp as (S & _). exists p. split; [reflexivity|]. split; [exact S|]. split; [exact S|]. split; [reflexivity|exact Ep].
  Qed.
  Lemma part_trans t v u x : part_of E t v u x -> forall w y, part_of E u x w y -> part_of E t v w y.
  Proof. induction 1; intros; [assumption|econstructor; eauto..]. Qed.
  Lemma portable_part t v u x : portable E t v -> part_of E t v u x -> portable E u x.
  Proof. intros P H w y H'. apply P. eapply part_trans; eassumption. Qed.
  Lemma walk_part t p u : walks E t p u -> forall v x, typed E t v -> reaches v p x -> part_of E t v u x.
  Proof.
    induction 1 as [|t fs i f path u K N _ IH|t e path u K _ IH]; intros v x Tv R; inversion R; subst; try lia; [constructor| |].
    - match goal with A : Z.of_nat _ = Z.of_nat _ |- _ => apply Nat2Z.inj in A; subst end. inversion Tv as [| | | | | | | | | | | | | |? gs ? K' F|]; subst. assert (gs = fs) by congruence. subst.
      eapply po_struct; try eassumption. eapply IH; [|eassumption]. eapply nth_typed; eassumption.
    - inversion Tv as [| | | | | | | |? ? ? K' Tx| | | | | | |]; subst. eapply po_ptr; [exact K|]. eapply IH; [|eassumption]. congruence.
  Qed.
  Lemma int_says z : says (JNum (text (int_parts z))) (SNum (inject_Z z)).
  Proof.
    destruct (FormatInt_text z) as (_ & (S & F & X) & V). apply sy_num; [exact S|]. unfold numval, magnitude, frac_digits. rewrite F, X. cbn [exp_val length]. change (dval []) with 0%Z. change (p10 (- Z.of_nat 0)) with 1%Q. change (p10 0) with 1%Q. transitivity (inject_Z (intval (int_parts z))); [|rewrite V; reflexivity]. unfold intval.
    destruct (pneg (int_parts z)); rewrite ?inject_Z_opp; ring.
  Qed.
  Lemma fields_walk t cs : struct_fields E D t cs -> forall c, In c cs -> walks E t (cindex c) (ctype c).
  Proof.
    intros (l & Of & Kp) c Ic. destruct (proj1 (offers_walks E D ES) _ _ _ Of c) as (i & r & Ei & Wk); [|rewrite Ei; exact Wk].
    clear - Kp Ic. induction Kp; [contradiction|destruct Ic as [->|Ic]; [left; reflexivity|right; auto]|right; auto].
  Qed.
  Lemma stands_go c s x addr : stands E [] c s -> typed E (ctype c) x -> dropped E D addr c x <-> s_omit s = true /\ go_empty x.
  Proof.
    intros (_ & _ & _ & Om & _ & _ & Ok) Tx.
    assert (G : omitempty c -> (dropped E D addr c x <-> go_empty x)).
    { intro O. specialize (Ok O). apply (C44_go_lem E D addr c x Tx (mute _) O).
      - intros n e K. rewrite K in Ok. exact Ok.
      - intros (T & fs & Ty & K & _). unfold kindOf in Ok. rewrite Ty in Ok. cbn [option_map] in Ok. rewrite K in Ok. exact Ok.
      - intro K. rewrite K in Ok. exact Ok.
      - intro K. rewrite K in Ok. exact Ok. }
    split.
    - intro H. assert (O : omitempty c) by (inversion H; assumption). split; [apply Om; exact O|apply G; assumption].
    - intros (S & Ge). apply Om in S. apply G; assumption.
  Qed.
  Lemma tree_std :
    (forall O addr h t v j, tree E O addr h t v j -> O = D -> typed E t v -> portable E t v -> said t v j) /\
    (forall O addr h t k v j, kind_tree E O addr h t k v j -> O = D -> kindOf E t = Some k -> typed E t v -> portable E t v -> said t v j) /\
    (forall O addr h e l js, each_tree E O addr h e l js -> O = D -> Forall (typed E e) l -> Forall (portable E e) l -> exists ms, Forall2 says js ms /\ std_each E letter e l ms) /\
    (forall O k e m ms, entry_trees E O k e m ms -> O = D -> Forall (fun p => typed E k (fst p) /\ typed E e (snd p)) m -> Forall (fun p => portable E e (snd p)) m ->
       exists l, Forall2 (fun a b => meaning (fst a) (fst b) /\ says (snd a) (snd b)) ms l /\ std_entries E letter k e m l) /\
    (forall O addr v cs ms, field_trees E O addr v cs ms -> O = D -> forall t, typed E t v -> portable E t v -> (forall c, In c cs -> walks E t (cindex c) (ctype c)) -> forall ss, Forall2 (stands E []) cs ss ->
       exists l, Forall2 (fun a b => meaning (fst a) (fst b) /\ says (snd a) (snd b)) ms l /\ std_members E letter v ss l) /\
    (forall t v j, top_tree E t v j -> typed E t v -> portable E t v -> said t v j).
  Proof.
    apply tree_mutind.
    - intros O addr h t T v b w j Ty A. exfalso. destruct (ML _ _ Ty) as ((? & _) & _). congruence.
    - intros O addr h t T v w j Ty _ A. exfalso. destruct (ML _ _ Ty) as ((_ & ? & _) & _). congruence.
    - intros O addr h t T v w Ty _ _ A. exfalso. destruct (ML _ _ Ty) as ((_ & _ & ?) & _). congruence.
    - intros O addr h t T v j Ty _ _ IH HO Tv P. apply IH; auto. unfold kindOf. rewrite Ty. reflexivity.
    - intros O addr t T fs v j Ty _ _ _ IH HO Tv P. apply IH; auto. unfold kindOf. rewrite Ty. reflexivity.
    - intros O addr h t _ K Tv P. exists (SBool true). split; [constructor|]. constructor; [eapply kind_bare|]; eassumption.
    - intros O addr h t _ K Tv P. exists (SBool false). split; [constructor|]. constructor; [eapply kind_bare|]; eassumption.
    - intros O addr h t bits z _ K Tv P. exists (SNum (inject_Z z)). split; [|eapply st_int; [eapply kind_bare|]; eassumption]. rewrite (proj1 (FormatInt_text z)). apply int_says.
    - intros O addr h t bits z _ K Tv P. exists (SNum (inject_Z z)). split; [|eapply st_uint; [eapply kind_bare|]; eassumption].
      inversion Tv; subst. rewrite (proj1 (FormatUint_text z ltac:(lia))). apply int_says.
    - intros O addr h t k f s Hk W _ K Tv P. destruct (float_value f s W) as (p & p' & -> & Sp' & Sp & V & Ft). exists (SNum (numval p)). split; [constructor; assumption|].
      assert (V32 : value_at E f 32 (numval p)) by (exists (useExp f 32), p; split; [exact Sp|split; [exact Ft|reflexivity]]).
      destruct Hk; subst k; [eapply st_float32|eapply st_float64]; try eassumption; try (eapply kind_bare; eassumption). destruct (P t (VFloat f) (po_here _ _ _)) as (_ & Pf). exact (Pf f _ K eq_refl V32).
    - intros O addr h t s w _ W _ K Tv P. destruct (Escaped_means _ _ _ W) as (rs & R & M). exists (SStr (utf8s rs)). split; [constructor; exact M|]. apply st_string; [eapply kind_bare| |]; eassumption.
    - intros O addr h t s w _ _ W _ K Tv P. destruct (Escaped_means _ _ _ W) as (rs & R & M). exists (SStr (utf8s rs)). split; [constructor; exact M|]. apply st_string; [eapply kind_bare| |]; eassumption.
    - intros O addr h t _ K Tv P. exists SNull. split; [constructor|]. eapply st_iface_nil; [eapply kind_bare|]; eassumption.
    - intros O addr h t dt x j _ IH _ K Tv P. inversion Tv as [| | | | | |? mm| | | | | | | | |]; subst. destruct IH as (m & S & St); [assumption|eapply portable_part; [exact P|eapply po_iface; [exact K|constructor]]|]. exists m. split; [exact S|]. eapply st_iface; [eapply kind_bare; exact K|exact K|exact St].
    - intros O addr h t e _ K Tv P. exists SNull. split; [constructor|]. eapply st_nil; [eapply kind_bare|]; eassumption.
    - intros O addr h t e x j _ IH HO K Tv P. inversion Tv as [| | | | | | | |? ? ? K'| | | | | | |]; subst. destruct IH as (m & S & St); [reflexivity|congruence|eapply portable_part; [exact P|eapply po_ptr; [exact K|constructor]]|]. exists m. split; [exact S|].
      eapply st_ptr; [eapply kind_bare; exact K|exact K|exact St].
    - intros O addr h t e _ K Tv P. exfalso. destruct (P t (VSlice None) (po_here _ _ _)) as (X & _). destruct (X e K) as (Y & _). apply Y. reflexivity.
    - intros O addr h t e l s js _ IH HO K Tv P. inversion Tv as [| | | | | | | | | |? e' ? ? K' F| | | | |]; subst. assert (e' = e) by congruence. subst e'. destruct IH as (ms & S & St); [reflexivity|exact F| |].
      { rewrite Forall_forall. intros x I. eapply portable_part; [exact P|]. eapply po_slice; [exact K|exact I|constructor]. }
      exists (SArr ms). split; [constructor; exact S|]. eapply st_slice; [eapply kind_bare; eassumption|exact K| |exact St]. left. destruct (P t _ (po_here _ _ _)) as (X & _). apply (X e K).
    - intros O addr h t n e l js Ln _ IH HO K Tv P. inversion Tv as [| | | | | | | | | | |? n' e' ? K' L' F| | | |]; subst. assert (e' = e) by congruence. subst e'. destruct IH as (ms & S & St); [reflexivity|exact F| |].
      { rewrite Forall_forall. intros x I. eapply portable_part; [exact P|]. eapply po_array; [exact K|exact I|constructor]. }
      exists (SArr ms). split; [constructor; exact S|]. eapply st_array; [eapply kind_bare; eassumption|exact K|exact St].
    - intros O addr h t k e _ K Tv P. exists SNull. split; [constructor|]. eapply st_map_nil; [eapply kind_bare|]; eassumption.
    - intros O addr h t k e m m' ms Pm _ IH HO K Tv P. inversion Tv as [| | | | | | | | | | | | |? k' e' ? K' F| |]; subst. assert (k' = k /\ e' = e) as (-> & ->) by (split; congruence). destruct IH as (l & S & St); [reflexivity| | |].
      { eapply Permutation_Forall; [apply Permutation_sym; exact Pm|exact F]. }
      { rewrite Forall_forall. intros [key x] I. apply (Permutation_in _ Pm) in I. eapply portable_part; [exact P|]. eapply po_map; [exact K|exact I|constructor]. }
      exists (SObj l). split; [constructor; exact S|]. eapply st_map; [eapply kind_bare; eassumption|exact K|exact Pm|exact St].
    - intros O addr h t fs cs v ms Sf _ IH HO K Tv P. subst O. destruct (fields_std E letter (fun t fs K => proj1 (SS t fs K)) ES _ _ (proj2 (SS _ _ K)) Sf) as (ss & F & Sd). destruct (IH eq_refl t Tv P (fields_walk _ _ Sf) ss F) as (l & S & St).
      exists (SObj l). split; [constructor; exact S|]. eapply st_struct; [eapply kind_bare; eassumption|exact K|exact Sd|exact St].
    - intros O addr h e _ _ _. exists []. split; constructor.
    - intros O addr h e x l j js _ IH1 _ IH2 HO F P. inversion F; inversion P; subst. destruct IH1 as (m & S & St); auto. destruct IH2 as (ms & Ss & Sts); auto. exists (m :: ms). split; constructor; assumption.
    - intros O k e _ _ _. exists []. split; constructor.
    - intros O k e key x m w j ms (T & Tk & Ks) _ IH1 _ IH2 HO F P. inversion F as [|? ? (Tke & Tx) F']; inversion P; subst. cbn [fst snd] in *. destruct IH1 as (mm & S & St); auto. destruct IH2 as (l & Ss & Sts); auto.
      destruct (ML _ _ Tk) as ((_ & _ & Nt) & _). destruct Ks as [(X & _)|(_ & s & -> & W)]; [congruence|]. destruct (Escaped_means _ _ _ W) as (rs & R & M). inversion Tke; subst.
      exists ((utf8s rs, mm) :: l). split; constructor; auto; [eapply bare; eassumption|]. constructor; assumption.
    - intros O addr v _ t Tv P Wk ss F. inversion F; subst. exists []. split; constructor.
    - intros O addr v c cs ms Nr _ IH HO t Tv P Wk ss F. inversion F as [|? s ? ss' Sc F']; subst. destruct (IH eq_refl t Tv P ltac:(intros; apply Wk; right; assumption) _ F') as (l & S & St). exists l. split; [exact S|].
      apply sb_unreached; [|exact St]. destruct Sc as (_ & Ci & _). cbn [app] in Ci. rewrite <- Ci. exact Nr.
    - intros O addr v c x cs ms R Dr _ IH HO t Tv P Wk ss F. inversion F as [|? s ? ss' Sc F']; subst. destruct (IH eq_refl t Tv P ltac:(intros; apply Wk; right; assumption) _ F') as (l & S & St). exists l. split; [exact S|].
      pose proof (walk_typed _ _ _ _ (Wk c (or_introl eq_refl)) _ _ Tv R) as Tx. apply (stands_go _ _ _ _ Sc Tx) in Dr. destruct Dr as (So & Ge). destruct Sc as (_ & Ci & _). cbn [app] in Ci. rewrite Ci in R. eapply sb_omitted; eassumption.
    - intros O addr v c x j cs ms R Dr _ IH1 _ IH HO t Tv P Wk ss F. inversion F as [|? s ? ss' Sc F']; subst. destruct (IH eq_refl t Tv P ltac:(intros; apply Wk; right; assumption) _ F') as (l & S & St).
      pose proof (Wk c (or_introl eq_refl)) as Wc. pose proof (walk_typed _ _ _ _ Wc _ _ Tv R) as Tx. destruct IH1 as (m & Sm & Stm); [reflexivity|exact Tx|eapply portable_part; [exact P|eapply walk_part; eassumption]|].
      assert (Nd : ~ (s_omit s = true /\ go_empty x)) by (intro X; apply Dr; apply (stands_go _ _ _ addr Sc Tx); exact X).
      destruct Sc as (Ck & Ci & Ct & _ & Q & Nb & _). cbn [app] in Ci. rewrite Ci in R. rewrite Ct in Stm. exists ((s_name s, m) :: l). split.
      + constructor; [split; [|exact Sm]|exact S]. cbn [fst]. rewrite <- Ck. apply plain_means. exact Nb.
      + eapply sb_member; eauto.
    - intros t e x j K _ IH Tv P. inversion Tv as [| | | | | | | |? ? ? K'| | | | | | |]; subst. destruct IH as (m & S & St); [reflexivity|congruence|eapply portable_part; [exact P|eapply po_ptr; [exact K|constructor]]|]. exists m. split; [exact S|].
      eapply st_ptr; [eapply kind_bare; exact K|exact K|exact St].
    - intros t v j Np _ IH Tv P. apply IH; auto.
  Qed.
End Std.

Lemma methodless_top E t v : methodless E -> v <> VPtr None -> top_ok E t v.
Proof.
  intros ML N. split; [exact N|]. intros T Ty. destruct (ML _ _ Ty) as ((A1 & A2 & A3) & (B1 & B2 & B3) & _). destruct (tkind T); try (split; [congruence|split; congruence]).
  intros X Tx. destruct (ML _ _ Tx) as ((C1 & C2 & C3) & _). split; [congruence|split; congruence].
Qed.
Lemma C77_lem E letter out t v res : std_world E -> std_structs E letter -> std_value E t v -> portable E t v -> AppendJSON E out (Some (t, v)) = Ok (res, None) ->
  exists w j m, res = out ++ w /\ rfc_value j w /\ says j m /\ std E letter t v m.
Proof.
  intros (Wf & Es & Wm & Fs & Tj & Mw & ML) SS (Tv & (Nt & Ni) & Fj) P A. destruct (C69_lem E out t v res Wf Es Wm Fs Tj Mw Tv) as (j & w & -> & R & Tr); auto.
  - apply methodless_top; assumption.
  - intros dt x I. apply methodless_top; [exact ML|]. intros ->. exact (Ni _ I).
  - destruct (proj2 (proj2 (proj2 (proj2 (proj2 (tree_std E letter SS Es Fs ML))))) _ _ _ Tr Tv P) as (m & S & St). exists w, j, m. auto.
Qed.
