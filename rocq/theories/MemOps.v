(* The mutators on memory do what the mutators on lists do. *)
From Coq Require Import Lia.
From Verif Require Import Bytes Tables Types JsonSpec Parser ParserProofs ParserThms Doc DocProofs CopyProofs Api
  Mem MemSpec MemHeap MemEff MemParse MemCopy MemInv.

(* writes to arrays of V, old ones only if they are array o *)
Record wrel (o : option nat) (h h' : heap) : Prop := {
  w_n : narrs h' = narrs h;
  w_len : length (varrs h) <= length (varrs h');
  w_cap : forall y, y < length (varrs h) -> length (varr h' y) = length (varr h y);
  w_same : forall y, y < length (varrs h) -> o <> Some y -> varr h' y = varr h y
}.
Lemma wrel_refl : forall o h, wrel o h h.
Proof. intros. constructor; auto. Qed.
Lemma wrel_trans : forall o h1 h2 h3, wrel o h1 h2 -> wrel o h2 h3 -> wrel o h1 h3.
Proof.
  intros o h1 h2 h3 [] []. constructor; try congruence; try lia.
  - intros. rewrite w_cap1 by lia. auto.
  - intros. rewrite w_same1 by (auto; lia). auto.
Qed.
Lemma wrel_wset : forall h s l, wrel (sarr s) h (wset h s l).
Proof.
  intros. constructor.
  - apply wset_narrs.
  - rewrite wset_varrs_length. lia.
  - intros. apply wset_varr_length.
  - intros. apply wset_varr_other. assumption.
Qed.
Lemma wrel_wput : forall h s i v, wrel (sarr s) h (wput h s i v).
Proof. intros. apply (wrel_wset h (sfrom s i)). Qed.
Lemma wrel_append : forall pol h s v h' s', goAppend pol h s v = (h', s') -> wrel (sarr s) h h'.
Proof.
  intros pol h s v h' s' H. unfold goAppend in H. destruct (slen s <? scap h s).
  - injection H as <- <-. apply wrel_wput.
  - destruct (valloc h (sread h s ++ [v] ++ repeat zeroV (polV pol (length (varrs h))))) as [h1 x] eqn:A.
    injection H as <- <-. constructor.
    + unfold valloc in A. injection A as <- <-. reflexivity.
    + unfold valloc in A. injection A as <- <-. simpl. rewrite app_length. lia.
    + intros. erewrite valloc_varr_old by eauto. reflexivity.
    + intros. eapply valloc_varr_old; eauto.
Qed.
Lemma wrel_narr : forall o h h' a, wrel o h h' -> narr h' a = narr h a.
Proof. intros. unfold narr. rewrite (w_n _ _ _ H). reflexivity. Qed.
Lemma wrel_sget : forall o h h' p, wrel o h h' -> sget h' p = sget h p.
Proof. intros. unfold sget. rewrite (wrel_narr _ _ _ _ H). reflexivity. Qed.
Lemma wrel_own : forall o h h' a i, wrel o h h' -> own h' a i = own h a i.
Proof. intros. apply own_narr_eq. eapply wrel_narr; eauto. Qed.
Lemma wrel_inb : forall o h h' s, wrel o h h' -> inb h s -> inb h' s.
Proof. intros. eapply inb_grow; eauto; apply H. Qed.
Lemma wrel_wf : forall o h h' a, wrel o h h' -> wf h a -> wf h' a.
Proof. intros. eapply wf_narr_eq; eauto; [eapply wrel_narr; eauto|apply H|apply H]. Qed.
Lemma wrel_read : forall o h h' s, wrel o h h' -> inb h s -> sarr s <> o \/ sarr s = None -> sread h' s = sread h s.
Proof.
  intros o h h' s W Hb N. apply sread_same. intros x Hx. apply (w_same _ _ _ W).
  - unfold inb in Hb. rewrite Hx in Hb. apply Hb.
  - intro K. destruct N as [N|N]; congruence.
Qed.

(* append writes the new element after the old ones *)
Lemma append_read : forall pol h s v h' s', inb h s -> goAppend pol h s v = (h', s') ->
  inb h' s' /\ sread h' s' = sread h s ++ [v] /\
  ((sarr s' = sarr s /\ soff s' = soff s /\ slen s' = S (slen s) /\ sread h' s = sread h s) \/
   (exists x, sarr s' = Some x /\ length (varrs h) <= x < length (varrs h'))).
Proof.
  intros pol h s v h' s' Hb H. unfold goAppend in H.
  destruct (Nat.ltb_spec (slen s) (scap h s)) as [L|L].
  - injection H as <- <-. unfold scap in L. destruct (sarr s) as [x|] eqn:Hs; [|lia].
    set (t := sto s (S (slen s))).
    assert (It : inb h t).
    { unfold inb, t in *. simpl. rewrite Hs in *. split; [apply Hb|]. destruct Hb. lia. }
    assert (Rt : sread h s = firstn (slen s) (sread h t)).
    { unfold t. rewrite <- sread_sto by (simpl; lia). destruct s; reflexivity. }
    split; [apply inb_wset; exact It|]. split.
    + unfold wput. change (sfrom s (slen s)) with (mkS (sarr s) (soff s + slen s) (slen s - slen s)).
      replace (wset h (mkS (sarr s) (soff s + slen s) (slen s - slen s)) [v])
        with (wset h (sfrom t (slen s)) [v]) by reflexivity.
      rewrite sread_wset_from by (auto; unfold t; simpl; lia).
      rewrite Rt. rewrite <- firstn_overwrite by (rewrite sread_length by exact It; unfold t; simpl; lia).
      symmetry. apply firstn_all2. rewrite overwrite_length, sread_length by exact It. unfold t. simpl. lia.
    + left. split; [exact Hs|]. split; [reflexivity|]. split; [reflexivity|].
      unfold wput. pose proof (sread_wset_past h s (slen s) [v]) as P.
      replace (sto s (slen s)) with s in P by (destruct s; reflexivity). exact P.
  - destruct (valloc h (sread h s ++ [v] ++ repeat zeroV (polV pol (length (varrs h))))) as [h1 x] eqn:A.
    injection H as <- <-. pose proof (valloc_varr_new _ _ _ _ A) as New.
    assert (Hx : x = length (varrs h) /\ length (varrs h1) = S (length (varrs h))).
    { unfold valloc in A. injection A as <- <-. simpl. rewrite app_length. simpl. split; [reflexivity|lia]. }
    destruct Hx as [Hx HL]. pose proof (sread_length _ _ Hb) as Ls.
    split; [|split].
    + unfold inb. cbn [sarr soff slen]. rewrite New, !app_length, Ls. simpl. lia.
    + unfold sread at 1. cbn [sarr soff slen]. rewrite New. simpl skipn.
      change (v :: repeat zeroV (polV pol (length (varrs h)))) with ([v] ++ repeat zeroV (polV pol (length (varrs h)))).
      rewrite app_assoc. replace (S (slen s)) with (length (sread h s ++ [v]) + 0) by (rewrite app_length; simpl; lia).
      rewrite firstn_app_2, firstn_O, app_nil_r. reflexivity.
    + right. exists x. split; [reflexivity|lia].
Qed.

(* ---- reading through a Node ---- *)
Lemma m_Document_agree : forall m n, Node_Document (worldOf m) n = m_Document m n.
Proof.
  intros m n. unfold Node_Document, m_Document. rewrite worldOf_get.
  destruct (m_getDoc m (ndoc n)); reflexivity.
Qed.

Lemma m_get_agree : forall m n, inv m ->
  match m_get m n with
  | Some p => exists r d s, ndoc n = Some r /\ nth_error (mdocs m) r = Some d /\ mrev d = nrev n /\
      p = (marr d, N.to_nat (nid n)) /\ N.to_nat (nid n) < mlen d /\ sget (mheap m) p = Some s /\
      Node_get (worldOf m) n = Some (snode (mheap m) s) /\ Node_nodes (worldOf m) n = dnodes (sdoc (mheap m) d)
  | None => Node_get (worldOf m) n = None
  end.
Proof.
  intros m n I. unfold m_get, Node_get, Node_nodes. rewrite worldOf_get. unfold m_getDoc.
  destruct (ndoc n) as [r|]; [|reflexivity]. destruct (nth_error (mdocs m) r) as [d|] eqn:D; [|reflexivity].
  cbn [option_map]. change (drev (sdoc (mheap m) d)) with (mrev d).
  destruct (N.eqb_spec (mrev d) (nrev n)) as [Er|Er]; [|reflexivity].
  pose proof (getNode_at m r d (nid n) I D) as G. destruct (m_at d (nid n)) as [p|] eqn:A; [|exact G].
  destruct G as (s & G1 & G2). apply at_lt in A as [-> L]. exists r, d, s. auto 10.
Qed.

(* ---- in-place change of one record ---- *)
Lemma own_put : forall h a i z b j x, own (sput h (a, i) z) b j = Some x ->
  (b = a /\ j = i /\ sarr (svals z) = Some x) \/ ((b <> a \/ j <> i) /\ own h b j = Some x).
Proof.
  intros h a i z b j x H. unfold own in *. rewrite sput_sget in H.
  destruct (Nat.eqb_spec a b) as [->|Na]; destruct (Nat.eqb_spec i j) as [->|Ni]; simpl in H; auto.
  destruct (Nat.ltb_spec j (length (narr h b))) as [L|L]; auto.
  unfold sget in H. simpl in H. destruct (nth_error (narr h b) j) eqn:Q; [|discriminate].
  exfalso. assert (j < length (narr h b)) by (apply nth_error_Some; congruence). lia.
Qed.

Lemma inplace : forall m r d i s h1 z, inv m -> nth_error (mdocs m) r = Some d -> i < mlen d ->
  sget (mheap m) (marr d, i) = Some s -> wrel (sarr (svals s)) (mheap m) h1 -> inb h1 (svals z) ->
  (forall x, sarr (svals z) = Some x -> sarr (svals s) = Some x \/ unowned m x) ->
  let h' := sput h1 (marr d, i) z in
  inv (withHeap m h') /\
  worldOf (withHeap m h') =
    putNodes (worldOf m) r (putNode (dnodes (sdoc (mheap m) d)) (N.of_nat i) (snode h1 z)).
Proof.
  intros m r d i s h1 z I D Li G W Hb Hz h'. unfold withHeap.
  pose proof (i_doc m I r d D) as (Ia & Il & Iw).
  assert (Os : own (mheap m) (marr d) i = sarr (svals s)) by (unfold own; rewrite G; reflexivity).
  assert (G1 : sget h1 (marr d, i) = Some s) by (rewrite (wrel_sget _ _ _ _ W); exact G).
  assert (Ow : forall b j x, own h' b j = Some x ->
            (b = marr d /\ j = i /\ sarr (svals z) = Some x) \/
            ((b <> marr d \/ j <> i) /\ own (mheap m) b j = Some x)).
  { intros b j x H. apply own_put in H as [H|[H1 H2]]; [left; exact H|]. right.
    rewrite (wrel_own _ _ _ _ _ W) in H2. auto. }
  assert (Nl : forall b, length (narr h' b) = length (narr (mheap m) b)).
  { intro b. unfold h'. rewrite sput_narr_length. rewrite (wrel_narr _ _ _ _ W). reflexivity. }
  assert (Nn : length (narrs h') = length (narrs (mheap m))).
  { unfold h'. rewrite sput_narrs_length, (w_n _ _ _ W). reflexivity. }
  assert (Rd : forall r' d' j t, nth_error (mdocs m) r' = Some d' -> (r', j) <> (r, i) ->
            sget (mheap m) (marr d', j) = Some t -> sread h' (svals t) = sread (mheap m) (svals t)).
  { intros r' d' j t D' Ne Gt. change (sread h' (svals t)) with (sread h1 (svals t)).
    eapply wrel_read; eauto.
    - eapply (proj1 (proj2 (proj2 (i_doc m I r' d' D')))); eauto.
    - destruct (sarr (svals t)) as [x|] eqn:Hx; [left|right; reflexivity]. intro K. symmetry in K. apply Ne.
      assert (O1 : own (mheap m) (marr d') j = Some x) by (unfold own; rewrite Gt; exact Hx).
      assert (O2 : own (mheap m) (marr d) i = Some x) by congruence.
      assert (r' = r) by (eapply i_own; eauto). subst r'. rewrite D in D'. injection D' as <-.
      f_equal. eapply (proj2 Iw); eauto. }
  split.
  - constructor; cbn [mheap mdocs].
    + intros r' d' D'. destruct (i_doc m I r' d' D') as (Ja & Jl & Jw). rewrite Nn, Nl.
      split; [exact Ja|]. split; [exact Jl|]. split.
      * intros j t H. change (inb h1 (svals t)). unfold h' in H. rewrite sput_sget in H.
        destruct ((marr d =? marr d') && (i =? j) && (i <? length (narr h1 (marr d)))).
        -- injection H as <-. exact Hb.
        -- rewrite (wrel_sget _ _ _ _ W) in H. eapply wrel_inb; eauto. eapply (proj1 Jw); eauto.
      * intros j j' x H1 H2. apply Ow in H1 as [(A1 & B1 & C1)|[N1 O1]]; apply Ow in H2 as [(A2 & B2 & C2)|[N2 O2]].
        -- congruence.
        -- destruct (Hz x C1) as [K|K].
           ++ rewrite <- Os in K. rewrite A1 in *. destruct N2 as [N2|N2]; [congruence|].
              exfalso. apply N2. eapply (proj2 Iw); eauto.
           ++ exfalso. exact (K r' d' j' D' O2).
        -- destruct (Hz x C2) as [K|K].
           ++ rewrite <- Os in K. rewrite A2 in *. destruct N1 as [N1|N1]; [congruence|].
              exfalso. apply N1. eapply (proj2 Iw); eauto.
           ++ exfalso. exact (K r' d' j D' O1).
        -- eapply (proj2 Jw); eauto.
    + intros r1 r2 d1 d2 D1 D2 K. eapply i_arr; eauto.
    + intros r1 r2 d1 d2 i1 i2 x D1 D2 H1 H2.
      apply Ow in H1 as [(A1 & B1 & C1)|[N1 O1]]; apply Ow in H2 as [(A2 & B2 & C2)|[N2 O2]].
      * eapply i_arr; eauto. congruence.
      * assert (r1 = r) by (eapply i_arr; eauto). subst r1. destruct (Hz x C1) as [K|K].
        -- rewrite <- Os in K. exact (i_own m I r r2 d d2 i i2 x D D2 K O2).
        -- exfalso. exact (K r2 d2 i2 D2 O2).
      * assert (r2 = r) by (eapply i_arr; eauto). subst r2. destruct (Hz x C2) as [K|K].
        -- rewrite <- Os in K. exact (i_own m I r1 r d1 d i1 i x D1 D O1 K).
        -- exfalso. exact (K r1 d1 i1 D1 O1).
      * eapply i_own; eauto.
  - apply nth_error_ext. intro r'. rewrite worldOf_nth. cbn [mheap mdocs].
    unfold putNodes. rewrite worldOf_nth, D. cbn [option_map]. rewrite nth_error_replaceNth.
    unfold worldOf at 1. rewrite map_length, worldOf_nth.
    destruct (Nat.eqb_spec r r') as [<-|Nr]; simpl andb; cbv iota.
    + assert (Lr : r <? length (mdocs m) = true) by (apply Nat.ltb_lt; apply nth_error_Some; congruence).
      rewrite Lr, D. simpl. f_equal. unfold sdoc. simpl. f_equal. unfold putNode. rewrite Nat2N.id.
      apply nth_error_ext. intro j. rewrite nth_error_replaceNth, !nth_error_map, !nth_error_firstn, map_length, firstn_length.
      replace (i <? Nat.min (mlen d) (length (narr (mheap m) (marr d)))) with true by (symmetry; apply Nat.ltb_lt; lia).
      rewrite andb_true_r. destruct (Nat.eqb_spec i j) as [<-|Nj].
      * destruct (Nat.ltb_spec i (mlen d)); [|lia].
        change (option_map (snode h') (sget h' (marr d, i)) = Some (snode h1 z)).
        unfold h'. rewrite (sput_same _ _ _ _ _ G1). reflexivity.
      * destruct (Nat.ltb_spec j (mlen d)); [|reflexivity].
        change (option_map (snode h') (sget h' (marr d, j)) = option_map (snode (mheap m)) (sget (mheap m) (marr d, j))).
        unfold h' at 2. rewrite sput_other by congruence. rewrite (wrel_sget _ _ _ _ W).
        destruct (sget (mheap m) (marr d, j)) as [t|] eqn:Gt; [|reflexivity]. simpl. f_equal. unfold snode. f_equal.
        eapply Rd; eauto. congruence.
    + destruct (nth_error (mdocs m) r') as [d'|] eqn:D'; [|reflexivity]. simpl. f_equal. unfold sdoc. f_equal.
      apply nth_error_ext. intro j. rewrite !nth_error_map, !nth_error_firstn. destruct (j <? mlen d'); [|reflexivity].
      change (option_map (snode h') (sget h' (marr d', j)) = option_map (snode (mheap m)) (sget (mheap m) (marr d', j))).
      unfold h' at 2. rewrite sput_other by (intro K; injection K as K1 K2; apply Nr; eapply i_arr; eauto).
      rewrite (wrel_sget _ _ _ _ W).
      destruct (sget (mheap m) (marr d', j)) as [t|] eqn:Gt; [|reflexivity]. simpl. f_equal. unfold snode. f_equal.
      eapply Rd; eauto. congruence.
Qed.

(* the same through a Node *)
Lemma inplace_node : forall m n r d s h1 z, inv m -> ndoc n = Some r -> nth_error (mdocs m) r = Some d ->
  N.to_nat (nid n) < mlen d -> sget (mheap m) (marr d, N.to_nat (nid n)) = Some s ->
  wrel (sarr (svals s)) (mheap m) h1 -> inb h1 (svals z) ->
  (forall x, sarr (svals z) = Some x -> sarr (svals s) = Some x \/ unowned m x) ->
  let h' := sput h1 (marr d, N.to_nat (nid n)) z in
  inv (withHeap m h') /\ worldOf (withHeap m h') = Node_put (worldOf m) n (snode h1 z).
Proof.
  intros m n r d s h1 z I Dn D L G W Hb Hz h'.
  destruct (inplace m r d (N.to_nat (nid n)) s h1 z I D L G W Hb Hz) as [J1 J2].
  split; [exact J1|]. unfold h'. rewrite J2, N2Nat.id. unfold Node_put, Node_nodes. rewrite Dn, worldOf_get.
  simpl m_getDoc. rewrite D. reflexivity.
Qed.

Lemma sput_id : forall h p s, sget h p = Some s -> sput h p s = h.
Proof.
  intros h [a i] s G. destruct (sget_narr _ _ _ _ G) as [La Li]. unfold sput. simpl.
  rewrite (replaceNth_self (narr h a) i s G). rewrite replaceNth_self; [destruct h; reflexivity|].
  unfold narr. rewrite nth_error_nth' with (d := []) by exact La. reflexivity.
Qed.

Lemma withValues_snode : forall h s t, snode h (setVals s t) = withValues (snode h s) (sread h t).
Proof. reflexivity. Qed.
Lemma withValues_snode' : forall h h' s t, snode h' (setVals s t) = withValues (snode h s) (sread h' t).
Proof. reflexivity. Qed.
