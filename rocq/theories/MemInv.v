(* The invariant on memories and the calls on documents. *)
From Coq Require Import Lia.
From Verif Require Import Bytes Tables Types JsonSpec Parser ParserProofs ParserThms Doc DocProofs CopyProofs Api
  Mem MemSpec MemHeap MemEff MemParse MemCopy.

Record inv (m : mem) : Prop := {
  i_doc : forall r d, nth_error (mdocs m) r = Some d ->
            marr d < length (narrs (mheap m)) /\ mlen d <= length (narr (mheap m) (marr d)) /\ wf (mheap m) (marr d);
  i_arr : forall r r' d d', nth_error (mdocs m) r = Some d -> nth_error (mdocs m) r' = Some d' ->
            marr d = marr d' -> r = r';
  i_own : forall r r' d d' i i' x, nth_error (mdocs m) r = Some d -> nth_error (mdocs m) r' = Some d' ->
            own (mheap m) (marr d) i = Some x -> own (mheap m) (marr d') i' = Some x -> r = r'
}.

Definition unowned (m : mem) (x : nat) : Prop :=
  forall r d j, nth_error (mdocs m) r = Some d -> own (mheap m) (marr d) j <> Some x.

Definition agree (a : res mem) (b : res world) : Prop :=
  match a, b with
  | Ok m, Ok w => inv m /\ worldOf m = w
  | Panic, Panic | Diverge, Diverge => True
  | _, _ => False
  end.

Lemma inv_empty : inv emptyMem.
Proof. constructor; intros [|r]; discriminate. Qed.

Lemma inv_exclusive : forall m, inv m -> exclusive m.
Proof.
  intros m I r i r' i' x (d & s & D & G & H) (d' & s' & D' & G' & H').
  assert (O : own (mheap m) (marr d) i = Some x) by (unfold own, sget; simpl; rewrite G; exact H).
  assert (O' : own (mheap m) (marr d') i' = Some x) by (unfold own, sget; simpl; rewrite G'; exact H').
  assert (r = r') by (eapply i_own; eauto). subst r'. split; [reflexivity|].
  rewrite D in D'. injection D' as <-. eapply (proj2 (proj2 (proj2 (i_doc m I r d D)))); eauto.
Qed.

(* ---- what a memory stands for ---- *)
Lemma worldOf_nth : forall m r, nth_error (worldOf m) r = option_map (sdoc (mheap m)) (nth_error (mdocs m) r).
Proof. intros. unfold worldOf. apply nth_error_map. Qed.
Lemma worldOf_get : forall m o, getDoc (worldOf m) o = option_map (sdoc (mheap m)) (m_getDoc m o).
Proof. intros m [r|]; [apply worldOf_nth|reflexivity]. Qed.

Lemma nodes_length : forall m r d, inv m -> nth_error (mdocs m) r = Some d ->
  length (dnodes (sdoc (mheap m) d)) = mlen d.
Proof.
  intros m r d I D. simpl. rewrite map_length, firstn_length. pose proof (i_doc m I r d D). lia.
Qed.

Lemma nodes_rng : forall h d, rng h (marr d) 0 (mlen d) (dnodes (sdoc h d)).
Proof.
  intros h d i Hi. simpl. rewrite nth_error_map, nth_error_firstn.
  destruct (Nat.ltb_spec i (mlen d)); [|lia]. reflexivity.
Qed.

Lemma rng_nodes : forall h a n ns, rng h a 0 n ns -> n = length ns -> map (snode h) (firstn n (narr h a)) = ns.
Proof.
  intros h a n ns R Hn. apply nth_error_ext. intro i. rewrite nth_error_map, nth_error_firstn.
  destruct (Nat.ltb_spec i n) as [L|L].
  - rewrite <- (R i ltac:(lia)). reflexivity.
  - symmetry. apply nth_error_None. lia.
Qed.

Lemma rng_join : forall h h' n a a' n' ns ns', eff (length (varrs h)) h n a h' a' -> wf h a ->
  rng h a 0 n ns -> firstn n ns' = ns -> rng h' a' n n' ns' -> rng h' a' 0 n' ns'.
Proof.
  intros h h' n a a' n' ns ns' E W R F R' i Hi. destruct (Nat.lt_ge_cases i n) as [L|L].
  - rewrite (rng_eff h n a h' a' 0 ns E W R i ltac:(lia)). rewrite <- F, nth_error_firstn.
    apply Nat.ltb_lt in L. rewrite L. reflexivity.
  - apply R'. lia.
Qed.

Lemma at_lt : forall d id p, m_at d id = Some p -> p = (marr d, N.to_nat id) /\ N.to_nat id < mlen d.
Proof.
  intros d id p H. unfold m_at in H. destruct (N.ltb_spec id (N.of_nat (mlen d))); [|discriminate].
  injection H as <-. split; [reflexivity|lia].
Qed.

Lemma getNode_at : forall m r d id, inv m -> nth_error (mdocs m) r = Some d ->
  match m_at d id with
  | Some p => exists s, sget (mheap m) p = Some s /\ getNode (dnodes (sdoc (mheap m) d)) id = Some (snode (mheap m) s)
  | None => getNode (dnodes (sdoc (mheap m) d)) id = None
  end.
Proof.
  intros m r d id I D. pose proof (nodes_length m r d I D) as L. unfold m_at, getNode, lenN. rewrite L.
  destruct (N.ltb_spec id (N.of_nat (mlen d))) as [H|H]; [|reflexivity].
  pose proof (nodes_rng (mheap m) d (N.to_nat id) ltac:(lia)) as R. rewrite <- R.
  destruct (sget (mheap m) (marr d, N.to_nat id)) as [s|] eqn:G; [exists s; auto|].
  unfold sget in G. simpl in G. apply nth_error_None in G. pose proof (i_doc m I r d D). lia.
Qed.

(* ---- work on one document ---- *)
Lemma sdoc_frame : forall m r d r' d' h', inv m -> nth_error (mdocs m) r = Some d ->
  nth_error (mdocs m) r' = Some d' -> r' <> r ->
  frame (length (varrs (mheap m))) (mheap m) (mlen d) (marr d) h' ->
  sdoc h' d' = sdoc (mheap m) d' /\ narr h' (marr d') = narr (mheap m) (marr d').
Proof.
  intros m r d r' d' h' I D D' N F.
  assert (Na : narr h' (marr d') = narr (mheap m) (marr d')).
  { apply (f_narr _ _ _ _ _ F); [apply (i_doc m I r' d' D')|]. intro K. apply N. eapply i_arr; eauto. }
  split; [|exact Na]. unfold sdoc. f_equal. rewrite Na. apply map_ext_in. intros s Hs.
  unfold snode. f_equal. apply sread_same. intros x Hx.
  apply In_nth_error in Hs as [i Hi]. rewrite nth_error_firstn in Hi.
  destruct (i <? mlen d'); [|discriminate].
  assert (O : own (mheap m) (marr d') i = Some x) by (unfold own, sget; simpl; rewrite Hi; exact Hx).
  apply (f_varr _ _ _ _ _ F).
  - eapply wf_own_lt; eauto. apply (i_doc m I r' d' D').
  - intros j _ K. apply N. eapply i_own; eauto.
Qed.

Lemma sdoc_low : forall m r d h', inv m -> nth_error (mdocs m) r = Some d ->
  frame (length (varrs (mheap m))) (mheap m) (mlen d) (marr d) h' -> sdoc h' d = sdoc (mheap m) d.
Proof.
  intros m r d h' I D F. unfold sdoc. f_equal. apply nth_error_ext. intro i.
  rewrite !nth_error_map, !nth_error_firstn. destruct (Nat.ltb_spec i (mlen d)) as [L|L]; [|reflexivity].
  change (option_map (snode h') (sget h' (marr d, i)) = option_map (snode (mheap m)) (sget (mheap m) (marr d, i))).
  rewrite (f_low _ _ _ _ _ F i L). destruct (sget (mheap m) (marr d, i)) as [s|] eqn:G; [|reflexivity].
  simpl. f_equal. unfold snode. f_equal. apply sread_same. intros x Hx.
  assert (O : own (mheap m) (marr d) i = Some x) by (unfold own; rewrite G; exact Hx).
  pose proof (proj2 (proj2 (i_doc m I r d D))) as W.
  apply (f_varr _ _ _ _ _ F); [eapply wf_own_lt; eauto|].
  intros j Hj K. assert (i = j) by (eapply (proj2 W); eauto). lia.
Qed.

Lemma own_frame_other : forall m r d r' d' h' i, inv m -> nth_error (mdocs m) r = Some d ->
  nth_error (mdocs m) r' = Some d' -> r' <> r ->
  frame (length (varrs (mheap m))) (mheap m) (mlen d) (marr d) h' ->
  own h' (marr d') i = own (mheap m) (marr d') i.
Proof.
  intros m r d r' d' h' i I D D' N F. apply own_narr_eq.
  exact (proj2 (sdoc_frame m r d r' d' h' I D D' N F)).
Qed.

Lemma wf_frame_other : forall m r d r' d' h', inv m -> nth_error (mdocs m) r = Some d ->
  nth_error (mdocs m) r' = Some d' -> r' <> r ->
  frame (length (varrs (mheap m))) (mheap m) (mlen d) (marr d) h' -> wf h' (marr d').
Proof.
  intros m r d r' d' h' I D D' N F. eapply wf_narr_eq.
  - apply (i_doc m I r' d' D').
  - exact (proj2 (sdoc_frame m r d r' d' h' I D D' N F)).
  - apply F.
  - apply F.
Qed.

Lemma nth_put : forall ds r (d : mdoc) r', nth_error (putMD ds r d) r' =
  if (r =? r') && (r <? length ds) then Some d else nth_error ds r'.
Proof. intros. apply nth_error_replaceNth. Qed.

Lemma inv_eff : forall m r d h' a' n' rev', inv m -> nth_error (mdocs m) r = Some d ->
  eff (length (varrs (mheap m))) (mheap m) (mlen d) (marr d) h' a' -> n' <= length (narr h' a') ->
  inv (mkM h' (putMD (mdocs m) r (mkMD a' n' rev'))).
Proof.
  intros m r d h' a' n' rev' I D E Hn. pose proof (e_frame _ _ _ _ _ _ E) as F.
  assert (Lr : r <? length (mdocs m) = true) by (apply Nat.ltb_lt; apply nth_error_Some; congruence).
  assert (C : forall r' d', nth_error (putMD (mdocs m) r (mkMD a' n' rev')) r' = Some d' ->
    (r' = r /\ d' = mkMD a' n' rev') \/ (r' <> r /\ nth_error (mdocs m) r' = Some d')).
  { intros r' d' H. rewrite nth_put, Lr, andb_true_r in H. destruct (Nat.eqb_spec r r') as [->|N].
    - injection H as <-. auto.
    - right. auto. }
  pose proof (i_doc m I r d D) as (Ia & Il & Iw).
  assert (X : forall r' d' i i' x, r' <> r -> nth_error (mdocs m) r' = Some d' -> own h' a' i = Some x ->
                own h' (marr d') i' = Some x -> False).
  { intros r' d' i i' x N D' H1 H2. rewrite (own_frame_other m r d r' d' h' i') in H2 by auto.
    apply (own_grow_split _ _ _ _ _ _ _ _ E) in H1 as [H1|[_ H1]].
    - apply N. eapply i_own; eauto.
    - apply wf_own_lt in H2; [lia|]. apply (i_doc m I r' d' D'). }
  constructor; simpl.
  - intros r' d' H. apply C in H as [[-> ->]|[N D']]; simpl.
    + split; [apply E|]. split; [exact Hn|apply E].
    + pose proof (i_doc m I r' d' D') as (Ja & Jl & Jw). split; [pose proof (f_nlen _ _ _ _ _ F); lia|].
      split; [|exact (wf_frame_other m r d r' d' h' I D D' N F)].
      destruct (sdoc_frame m r d r' d' h' I D D' N F) as [_ ->]. exact Jl.
  - intros r1 r2 d1 d2 H1 H2 K. apply C in H1 as [[-> ->]|[N1 D1]]; apply C in H2 as [[-> ->]|[N2 D2]]; simpl in K.
    + reflexivity.
    + exfalso. pose proof (i_doc m I r2 d2 D2) as (Ja & _ & _). destruct (e_new _ _ _ _ _ _ E) as [Q|Q]; [|lia].
      apply N2. eapply i_arr; eauto. congruence.
    + exfalso. pose proof (i_doc m I r1 d1 D1) as (Ja & _ & _). destruct (e_new _ _ _ _ _ _ E) as [Q|Q]; [|lia].
      apply N1. eapply i_arr; eauto. congruence.
    + eapply i_arr; eauto.
  - intros r1 r2 d1 d2 i1 i2 x H1 H2 K1 K2.
    apply C in H1 as [[-> ->]|[N1 D1]]; apply C in H2 as [[-> ->]|[N2 D2]]; simpl in *.
    + reflexivity.
    + exfalso. eapply X; eauto.
    + exfalso. eapply X; eauto.
    + rewrite (own_frame_other m r d r1 d1) in K1 by auto. rewrite (own_frame_other m r d r2 d2) in K2 by auto.
      eapply i_own; eauto.
Qed.

Lemma world_eff : forall m r d h' d2, inv m -> nth_error (mdocs m) r = Some d ->
  frame (length (varrs (mheap m))) (mheap m) (mlen d) (marr d) h' ->
  worldOf (mkM h' (putMD (mdocs m) r d2)) = putDoc (worldOf m) r (sdoc h' d2).
Proof.
  intros m r d h' d2 I D F. apply nth_error_ext. intro r'.
  rewrite worldOf_nth. cbn [mheap mdocs]. unfold putMD, putDoc. rewrite !nth_error_replaceNth.
  unfold worldOf at 1. rewrite map_length. rewrite worldOf_nth.
  destruct (Nat.eqb_spec r r') as [->|N]; simpl.
  - assert (Lr : r' <? length (mdocs m) = true) by (apply Nat.ltb_lt; apply nth_error_Some; congruence).
    rewrite Lr. reflexivity.
  - destruct (nth_error (mdocs m) r') as [d'|] eqn:D'; [|reflexivity]. simpl. f_equal.
    exact (proj1 (sdoc_frame m r d r' d' h' I D D' (not_eq_sym N) F)).
Qed.

(* the document's own work seen from outside: ns' are its nodes afterwards *)
Lemma eff_done : forall m r d h' a' n' ns' rev', inv m -> nth_error (mdocs m) r = Some d ->
  eff (length (varrs (mheap m))) (mheap m) (mlen d) (marr d) h' a' -> n' <= length (narr h' a') ->
  n' = length ns' -> firstn (mlen d) ns' = dnodes (sdoc (mheap m) d) -> rng h' a' (mlen d) n' ns' ->
  inv (mkM h' (putMD (mdocs m) r (mkMD a' n' rev'))) /\
  worldOf (mkM h' (putMD (mdocs m) r (mkMD a' n' rev'))) = putDoc (worldOf m) r (mkDoc ns' rev').
Proof.
  intros m r d h' a' n' ns' rev' I D E Hc Hn F R. split; [eapply inv_eff; eauto|].
  rewrite (world_eff m r d) by (auto; apply E). f_equal. unfold sdoc. simpl. f_equal.
  apply rng_nodes; [|exact Hn]. eapply rng_join; eauto.
  - apply (i_doc m I r d D).
  - apply nodes_rng.
Qed.

(* ---- Parse ---- *)
Lemma putDoc_self : forall w r d, nth_error w r = Some d -> putDoc w r d = w.
Proof. intros. apply replaceNth_self. exact H. Qed.

Lemma orInfo_nth : forall ns id f i, nth_error (orInfo ns id f) i =
  if i =? id then option_map (fun n => mkNode (N.lor (ninfo n) f) (nraw n) (nvalues n)) (nth_error ns i)
  else nth_error ns i.
Proof.
  induction ns as [|n r IH]; intros id f i; simpl.
  - destruct (i =? id); destruct i; reflexivity.
  - destruct id as [|id]; destruct i as [|i]; simpl; try reflexivity. apply IH.
Qed.
Lemma orInfo_length : forall ns id f, length (orInfo ns id f) = length ns.
Proof. induction ns as [|n r IH]; intros [|id] f; simpl; auto. Qed.

Lemma inv_frame : forall m r d h', inv m -> nth_error (mdocs m) r = Some d ->
  frame (length (varrs (mheap m))) (mheap m) (mlen d) (marr d) h' ->
  inv (mkM h' (mdocs m)) /\ worldOf (mkM h' (mdocs m)) = worldOf m.
Proof.
  intros m r d h' I D F. pose proof (i_doc m I r d D) as (Ia & Il & Iw).
  assert (E : eff (length (varrs (mheap m))) (mheap m) (mlen d) (marr d) h' (marr d)).
  { constructor; auto; try apply F.
    - pose proof (f_nlen _ _ _ _ _ F). lia.
    - rewrite (f_acap _ _ _ _ _ F). lia. }
  assert (Q : putMD (mdocs m) r (mkMD (marr d) (mlen d) (mrev d)) = mdocs m).
  { apply replaceNth_self. rewrite D. destruct d; reflexivity. }
  rewrite <- Q. split.
  - eapply inv_eff; eauto. rewrite (f_acap _ _ _ _ _ F). exact Il.
  - rewrite (world_eff m r d) by auto. apply putDoc_self. rewrite worldOf_nth, D. simpl. f_equal.
    symmetry. replace (mkMD (marr d) (mlen d) (mrev d)) with d by (destruct d; reflexivity).
    eapply sdoc_low; eauto.
Qed.

Lemma Parse_agree : forall m r s, inv m ->
  agree (m_Parse m r s) (let! (w', _) := Document_Parse (worldOf m) r s in Ok w').
Proof.
  intros m r s I. unfold m_Parse, Document_Parse. rewrite worldOf_nth.
  destruct (nth_error (mdocs m) r) as [d|] eqn:D; [|exact Logic.I]. simpl option_map.
  pose proof (i_doc m I r d D) as (Ia & Il & Iw). pose proof (nodes_length m r d I D) as Hl.
  set (ns := dnodes (sdoc (mheap m) d)) in *. unfold parseNodes.
  pose proof (proj1 (sim_all (parseFuel s)) (mheap m) (marr d) (mlen d) ns s 0%N Ia Iw Il Hl) as S.
  destruct (parseValue (parseFuel s) ns s 0) as [ns' pos rest|e|] eqn:P,
    (m_value (parseFuel s) (mheap m) (marr d) (mlen d) s 0) as [h' a' n' pos' rest'|h' e'| |];
    simpl in S; try contradiction.
  - destruct S as (-> & -> & E & Hn & Hc & F & R).
    destruct (proj1 (parse_sound _) _ _ _ _ _ _ P) as (s1 & w & v & _ & _ & _ & _ & Hns & _).
    destruct (layout_cons (lenN ns) v) as (x0 & rr & Hlay & _).
    assert (Lt : mlen d < n') by (rewrite Hn, Hns, Hlay, app_length; simpl; lia).
    assert (exists y, sget h' (a', mlen d) = Some y) as [y G].
    { unfold sget. simpl. destruct (nth_error (narr h' a') (mlen d)) eqn:Q; [eauto|]. apply nth_error_None in Q. lia. }
    rewrite G. simpl. rewrite Hl.
    assert (Oy : own h' a' (mlen d) = sarr (svals y)) by (unfold own; rewrite G; reflexivity).
    set (z := mkSlot (N.lor (sinfo y) infRoot) (sraw y) (svals y)).
    assert (E2 : eff (length (varrs (mheap m))) (mheap m) (mlen d) (marr d) (sput h' (a', mlen d) z) a').
    { apply eff_put; auto.
      - simpl. eapply (proj1 (e_wf _ _ _ _ _ _ E)); eauto.
      - simpl. intros x Hx. rewrite <- Oy in Hx. split.
        + apply (e_own _ _ _ _ _ _ E); auto.
        + intros j Nj K. apply Nj. eapply (proj2 (e_wf _ _ _ _ _ _ E)); eauto. }
    apply (eff_done m r d); auto.
    + rewrite sput_narr_length. exact Hc.
    + rewrite orInfo_length. exact Hn.
    + apply nth_error_ext. intro i. change (dnodes (sdoc (mheap m) d)) with ns.
      transitivity (nth_error (firstn (mlen d) ns') i); [|rewrite F; reflexivity]. rewrite !nth_error_firstn.
      destruct (Nat.ltb_spec i (mlen d)); [|reflexivity]. rewrite orInfo_nth.
      destruct (Nat.eqb_spec i (mlen d)); [lia|reflexivity].
    + intros i Hi. rewrite orInfo_nth. destruct (Nat.eqb_spec i (mlen d)) as [->|Ni].
      * rewrite (sput_same _ _ _ _ _ G). rewrite <- (R _ Hi), G. reflexivity.
      * rewrite sput_other by congruence. exact (R i Hi).
  - destruct S as (-> & F). destruct (inv_frame m r d h' I D F) as [I' W'].
    assert (Q : agree (Ok (mkM h' (mdocs m))) (Ok (putDoc (worldOf m) r (mkDoc ns (drev (sdoc (mheap m) d)))))).
    { simpl. split; [exact I'|]. rewrite W'. symmetry. apply putDoc_self. rewrite worldOf_nth, D. reflexivity. }
    destruct e; exact Q.
  - exact Logic.I.
Qed.

(* ---- constructors, Reset, new documents ---- *)
Lemma newNode_agree : forall pol m r info raw, inv m ->
  agree (m_newNode pol m r info raw) (let! (w', _) := newNode (worldOf m) r info raw in Ok w').
Proof.
  intros pol m r info raw I. unfold m_newNode, newNode. rewrite worldOf_nth.
  destruct (nth_error (mdocs m) r) as [d|] eqn:D; [|exact Logic.I]. simpl option_map.
  pose proof (i_doc m I r d D) as (Ia & Il & Iw). pose proof (nodes_length m r d I D) as Hl.
  destruct (d_grow pol (mheap m) (marr d) (mlen d)) as [h1 a1] eqn:Gr.
  destruct (d_grow_eff _ _ _ _ _ _ Ia Iw Il Gr) as (E1 & V1 & x & G).
  unfold s_reset. destruct (p_blank h1 (a1, mlen d) (N.lor info infRoot) raw) as [h2|] eqn:Bk.
  2:{ unfold p_blank in Bk. rewrite G in Bk. discriminate. }
  destruct (blank_eff _ _ _ _ _ _ _ _ _ _ _ Ia E1 (le_n _) G Bk) as (E2 & R & S & _).
  cbn [bind agree]. apply (eff_done m r d); auto.
  - destruct (sget h2 (a1, mlen d)) eqn:G2; [|discriminate]. apply sget_narr in G2. lia.
  - rewrite app_length, Hl. simpl. lia.
  - rewrite firstn_app, Hl, Nat.sub_diag. rewrite firstn_all2 by lia. simpl firstn. apply app_nil_r.
  - intros i Hi. assert (i = mlen d) by lia. subst i. rewrite R. rewrite nth_error_app2 by lia.
    rewrite Hl, Nat.sub_diag. reflexivity.
Qed.

Lemma Reset_agree : forall m r, inv m -> agree (m_Reset m r) (Document_Reset (worldOf m) r).
Proof.
  intros m r I. unfold m_Reset, Document_Reset. rewrite worldOf_nth.
  destruct (nth_error (mdocs m) r) as [d|] eqn:D; [|exact Logic.I]. simpl option_map.
  pose proof (i_doc m I r d D) as (Ia & Il & Iw).
  assert (E : eff (length (varrs (mheap m))) (mheap m) (mlen d) (marr d) (mheap m) (marr d)) by (apply eff_refl; auto).
  split.
  - eapply inv_eff; eauto. lia.
  - rewrite (world_eff m r d) by (auto; apply E). reflexivity.
Qed.

Lemma NewDoc_agree : forall pol m, inv m -> agree (mstep pol m CNewDoc) (step (worldOf m) CNewDoc).
Proof.
  intros pol m I. simpl. set (h := mheap m) in *. set (z := repeat zeroSlot (polD pol (length (narrs h)))).
  set (h' := mkH (varrs h) (narrs h ++ [z])).
  assert (Old : forall a, a < length (narrs h) -> narr h' a = narr h a)
    by (intros; unfold narr; simpl; apply app_nth1; assumption).
  assert (New : narr h' (length (narrs h)) = z)
    by (unfold narr; simpl; rewrite app_nth2 by lia; rewrite Nat.sub_diag; reflexivity).
  assert (On : forall i, own h' (length (narrs h)) i = None).
  { intro i. unfold own, sget. simpl. rewrite New. destruct (nth_error z i) eqn:Q; [|reflexivity].
    apply nth_error_repeat_inv in Q. subst. reflexivity. }
  assert (C : forall r d, nth_error (mdocs m ++ [mkMD (length (narrs h)) 0 0]) r = Some d ->
    (r = length (mdocs m) /\ d = mkMD (length (narrs h)) 0 0) \/ nth_error (mdocs m) r = Some d).
  { intros r d H. destruct (Nat.lt_ge_cases r (length (mdocs m))) as [L|L].
    - rewrite nth_error_app1 in H by exact L. auto.
    - rewrite nth_error_app2 in H by exact L. destruct (r - length (mdocs m)) as [|k] eqn:Q; simpl in H.
      + injection H as <-. left. split; [lia|reflexivity].
      + destruct k; discriminate. }
  assert (Oo : forall r d i, nth_error (mdocs m) r = Some d -> own h' (marr d) i = own h (marr d) i).
  { intros r d i D. apply own_narr_eq. apply Old. apply (i_doc m I r d D). }
  split.
  - constructor; cbn [mheap mdocs].
    + intros r d H. apply C in H as [[-> ->]|D].
      * cbn [marr mlen]. split; [simpl; rewrite app_length; simpl; lia|]. split; [lia|]. split.
        -- intros i s H. unfold sget in H. simpl in H. rewrite New in H. apply nth_error_repeat_inv in H.
           subst s. reflexivity.
        -- intros i j x H. rewrite On in H. discriminate.
      * destruct (i_doc m I r d D) as (Ja & Jl & Jw). fold h in Ja, Jl, Jw.
        split; [simpl; rewrite app_length; simpl; lia|]. rewrite Old by exact Ja. split; [exact Jl|].
        eapply wf_narr_eq; eauto.
    + intros r1 r2 d1 d2 H1 H2 K. apply C in H1 as [[-> ->]|D1]; apply C in H2 as [[-> ->]|D2]; simpl in K.
      * reflexivity.
      * destruct (i_doc m I r2 d2 D2) as (Ja & _). fold h in Ja. lia.
      * destruct (i_doc m I r1 d1 D1) as (Ja & _). fold h in Ja. lia.
      * eapply i_arr; eauto.
    + intros r1 r2 d1 d2 i1 i2 x H1 H2 K1 K2. apply C in H1 as [[-> ->]|D1]; apply C in H2 as [[-> ->]|D2].
      * reflexivity.
      * cbn [marr] in K1. rewrite On in K1. discriminate.
      * cbn [marr] in K2. rewrite On in K2. discriminate.
      * rewrite (Oo r1 d1) in K1 by exact D1. rewrite (Oo r2 d2) in K2 by exact D2. eapply i_own; eauto.
  - unfold worldOf. cbn [mheap mdocs]. rewrite map_app. f_equal. apply map_ext_in. intros d Hd.
    apply In_nth_error in Hd as [r D]. unfold sdoc. f_equal. fold h.
    rewrite Old by (apply (i_doc m I r d D)). reflexivity.
Qed.
