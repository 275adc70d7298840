(* copyOrAdopt, Set, Append and Replace on memory, and histories. *)
From Coq Require Import Lia.
From Verif Require Import Bytes Tables Types JsonSpec Parser ParserProofs ParserThms Doc DocProofs CopyProofs Api
  Mem MemSpec MemHeap MemEff MemParse MemCopy MemInv MemOps MemMut.

(* What copyOrAdopt leaves alone: the records below the old length keep their slices, and slices in
   arrays no record at or above it has keep their contents. *)
Record kept (m : mem) (r : ref) (d : mdoc) (m' : mem) (d' : mdoc) : Prop := {
  k_doc : nth_error (mdocs m') r = Some d';
  k_rev : mrev d' = mrev d;
  k_len : mlen d <= mlen d';
  k_slot : forall i, i < mlen d ->
             option_map svals (sget (mheap m') (marr d', i)) = option_map svals (sget (mheap m) (marr d, i));
  k_inb : forall s, inb (mheap m) s -> inb (mheap m') s;
  k_read : forall s, inb (mheap m) s ->
             (forall j x, sarr s = Some x -> mlen d <= j -> own (mheap m) (marr d) j <> Some x) ->
             sread (mheap m') s = sread (mheap m) s;
  k_unowned : forall x, x < length (varrs (mheap m)) -> unowned m x -> unowned m' x
}.

Lemma kept_refl : forall m r d, nth_error (mdocs m) r = Some d -> kept m r d m d.
Proof. intros. constructor; auto. Qed.

Lemma kept_eff : forall m r d h' a' n', inv m -> nth_error (mdocs m) r = Some d ->
  eff (length (varrs (mheap m))) (mheap m) (mlen d) (marr d) h' a' -> mlen d <= n' ->
  kept m r d (mkM h' (putMD (mdocs m) r (mkMD a' n' (mrev d)))) (mkMD a' n' (mrev d)).
Proof.
  intros m r d h' a' n' I D E Ln. pose proof (e_frame _ _ _ _ _ _ E) as F.
  assert (Lr : r <? length (mdocs m) = true) by (apply Nat.ltb_lt; apply nth_error_Some; congruence).
  constructor; cbn [mheap mdocs mrev mlen marr]; auto.
  - rewrite nth_put, Nat.eqb_refl, Lr. reflexivity.
  - intros i Li. rewrite (e_low _ _ _ _ _ _ E) by exact Li. reflexivity.
  - intros s Hb. eapply inb_grow; eauto; apply F.
  - intros s Hb Hs. apply sread_same. intros x Hx. apply (f_varr _ _ _ _ _ F).
    + unfold inb in Hb. rewrite Hx in Hb. apply Hb.
    + intros i Hi. apply Hs; assumption.
  - intros x Lx U r' d' j D'. cbn [mdocs mheap] in *. rewrite nth_put, Lr, andb_true_r in D'.
    destruct (Nat.eqb_spec r r') as [<-|N].
    + injection D' as <-. simpl. intro K. apply (own_grow_split _ _ _ _ _ _ _ _ E) in K as [K|[_ K]]; [|lia].
      exact (U r d j D K).
    + rewrite (own_frame_other m r d r' d' h' j I D D' (not_eq_sym N) F). exact (U r' d' j D').
Qed.

Definition coa (m : mem) (r : ref) (d : mdoc) (a : res (mem * N)) (b : res (world * N)) : Prop :=
  match a, b with
  | Ok (m', id'), Ok (w, id) => id' = id /\ inv m' /\ worldOf m' = w /\ exists d', kept m r d m' d'
  | Panic, Panic | Diverge, Diverge => True
  | _, _ => False
  end.

Lemma coa_sim : forall pol m r d other id to, inv m -> nth_error (mdocs m) r = Some d ->
  coa m r d (m_copyOrAdopt pol m r other id to) (copyOrAdopt (worldOf m) r other id to).
Proof.
  intros pol m r d other id to I D. unfold m_copyOrAdopt, copyOrAdopt. rewrite worldOf_nth, D, worldOf_get.
  cbn [option_map]. pose proof (i_doc m I r d D) as (Ia & Il & Iw).
  assert (Self : coa m r d (Ok (m, maxUint)) (Ok (worldOf m, maxUint))).
  { split; [reflexivity|]. split; [exact I|]. split; [reflexivity|]. exists d. apply kept_refl. exact D. }
  destruct other as [ro|]; [|exact Self]. cbn [m_getDoc].
  destruct (nth_error (mdocs m) ro) as [o|] eqn:Do; [|exact Self]. cbn [option_map].
  pose proof (getNode_at m ro o id I Do) as GA. unfold m_at in GA.
  destruct (N.ltb_spec id (N.of_nat (mlen o))) as [Lo|Lo]; [|rewrite GA; exact Self].
  destruct GA as (s & G & Gn). rewrite Gn, G. cbv zeta. unfold depthFuel. rewrite (nodes_length m ro o I Do).
  cbn [opt_ref_eqb]. destruct (Nat.eqb_spec ro r) as [->|Nr].
  - rewrite D in Do. injection Do as <-. cbn [andb snode ninfo nraw nvalues].
    destruct (negb (id =? to)%N && info_IsRoot (sinfo s) && negb (id =? 0)%N).
    + (* adopt *)
      set (z := mkSlot (N.ldiff (sinfo s) infRoot) (sraw s) (svals s)).
      destruct (inplace m r d (N.to_nat id) s (mheap m) z I D ltac:(lia) G (wrel_refl _ _)) as [J1 J2].
      { simpl. eapply slot_inb; eauto. }
      { apply keep_arr. reflexivity. }
      rewrite N2Nat.id in J2. split; [reflexivity|]. split; [exact J1|]. split; [exact J2|].
      exists d. constructor; cbn [withHeap mheap mdocs]; auto.
      * intros i Li. rewrite sput_sget, Nat.eqb_refl. cbn [andb].
        destruct (Nat.eqb_spec (N.to_nat id) i) as [<-|Ni]; [|reflexivity]. simpl andb.
        destruct (N.to_nat id <? length (narr (mheap m) (marr d))); [|reflexivity]. rewrite G. reflexivity.
      * intros x Lx U r' d' j D' K. cbn [mdocs mheap] in *. apply own_put in K as [(Ka & -> & K)|[_ K]].
        -- assert (r' = r) by (eapply i_arr; eauto). subst r'.
           apply (U r d (N.to_nat id) D). unfold own. rewrite G. exact K.
        -- exact (U r' d' j D' K).
    + (* copy within the document *)
      pose proof (ncopy_sim pol None None (S (S (mlen d))) (mheap m) (marr d) (mlen d)
        (dnodes (sdoc (mheap m) d)) (marr d, N.to_nat id) (snode (mheap m) s) Ia Iw Il
        (nodes_length m r d I D) (nodes_rng _ _)) as C.
      assert (Src : src (mheap m) (marr d) (mlen d) (marr d, N.to_nat id) (snode (mheap m) s)).
      { eapply src_self; [exact Iw|apply nodes_rng|symmetry; eapply nodes_length; eauto|].
        unfold getNode in Gn. destruct (id <? lenN (dnodes (sdoc (mheap m) d)))%N; [exact Gn|discriminate]. }
      specialize (C Src Logic.I). unfold csim in C.
      change (mkNode (sinfo s) (sraw s) (sread (mheap m) (svals s))) with (snode (mheap m) s).
      destruct (ncopy (S (S (mlen d))) None (dnodes (sdoc (mheap m) d)) (snode (mheap m) s)) as [[ns cid]|],
        (m_ncopy pol (S (S (mlen d))) None (mheap m) (marr d) (mlen d) (marr d, N.to_nat id)) as [[[[h' a'] n'] cid']|];
        try contradiction; [|exact Logic.I].
      destruct C as (-> & E & Hn & Hc & F & R).
      assert (Ln : mlen d <= n').
      { assert (Q : length (firstn (mlen d) ns) = mlen d) by (rewrite F; eapply nodes_length; eauto).
        rewrite firstn_length in Q. lia. }
      destruct (eff_done m r d h' a' n' ns (mrev d) I D E Hc Hn F) as [J1 J2].
      { intros i Hi. apply R. lia. }
      split; [reflexivity|]. split; [exact J1|]. split.
      * rewrite J2. unfold putNodes. rewrite worldOf_nth, D. reflexivity.
      * eexists. apply kept_eff; eauto.
  - (* copy from another document *)
    cbn [andb]. pose proof (i_doc m I ro o Do) as (Oa & Ol & Ow).
    assert (OK : otherOK (mheap m) (marr d) (mlen d) (Some (marr o, mlen o)) (Some (dnodes (sdoc (mheap m) o)))).
    { unfold otherOK. split; [eapply nodes_length; eauto|]. intros i nd Hi.
      assert (Li : i < mlen o).
      { rewrite <- (nodes_length m ro o I Do). apply nth_error_Some. intro Q. rewrite Q in Hi. discriminate. }
      pose proof (nodes_rng (mheap m) o i ltac:(lia)) as R. rewrite Hi in R.
      destruct (sget (mheap m) (marr o, i)) as [t|] eqn:Gt; [|discriminate]. injection R as R.
      exists t. split; [exact Gt|]. split; [exact R|]. split; [eapply slot_inb; eauto|]. split.
      - left. simpl. intro K. apply Nr. exact (i_arr m I _ _ _ _ Do D K).
      - intros x j Hx Hj K. apply Nr. eapply (i_own m I ro r o d i j x Do D); [|exact K].
        unfold own. rewrite Gt. exact Hx. }
    assert (Src : src (mheap m) (marr d) (mlen d) (marr o, N.to_nat id) (snode (mheap m) s)).
    { simpl in OK. destruct OK as [_ OK]. apply OK. unfold getNode in Gn.
      destruct (id <? lenN (dnodes (sdoc (mheap m) o)))%N; [exact Gn|discriminate]. }
    pose proof (ncopy_sim pol (Some (marr o, mlen o)) (Some (dnodes (sdoc (mheap m) o))) (S (S (mlen o)))
      (mheap m) (marr d) (mlen d) (dnodes (sdoc (mheap m) d)) (marr o, N.to_nat id) (snode (mheap m) s) Ia Iw Il
      (nodes_length m r d I D) (nodes_rng _ _) Src OK) as C.
    unfold csim in C.
    destruct (ncopy (S (S (mlen o))) (Some (dnodes (sdoc (mheap m) o))) (dnodes (sdoc (mheap m) d)) (snode (mheap m) s)) as [[ns cid]|],
      (m_ncopy pol (S (S (mlen o))) (Some (marr o, mlen o)) (mheap m) (marr d) (mlen d) (marr o, N.to_nat id)) as [[[[h' a'] n'] cid']|];
      try contradiction; [|exact Logic.I].
    destruct C as (-> & E & Hn & Hc & F & R).
    assert (Ln : mlen d <= n').
    { assert (Q : length (firstn (mlen d) ns) = mlen d) by (rewrite F; eapply nodes_length; eauto).
      rewrite firstn_length in Q. lia. }
    destruct (eff_done m r d h' a' n' ns (mrev d) I D E Hc Hn F) as [J1 J2].
    { intros i Hi. apply R. lia. }
    split; [reflexivity|]. split; [exact J1|]. split.
    + rewrite J2. unfold putNodes. rewrite worldOf_nth, D. reflexivity.
    + eexists. apply kept_eff; eauto.
Qed.

(* the record of n after copyOrAdopt *)
Lemma kept_get : forall m r d m' d' n s, inv m -> inv m' -> kept m r d m' d' -> ndoc n = Some r -> mrev d = nrev n ->
  nth_error (mdocs m) r = Some d ->
  N.to_nat (nid n) < mlen d -> sget (mheap m) (marr d, N.to_nat (nid n)) = Some s ->
  m_get m' n = Some (marr d', N.to_nat (nid n)) /\
  exists s', sget (mheap m') (marr d', N.to_nat (nid n)) = Some s' /\ svals s' = svals s /\
             Node_get (worldOf m') n = Some (snode (mheap m') s') /\
             sread (mheap m') (svals s) = sread (mheap m) (svals s).
Proof.
  intros m r d m' d' n s I I' K Dn Rv D L G. pose proof (k_slot _ _ _ _ _ K _ L) as S. rewrite G in S.
  pose proof (m_get_agree m' n I') as A.
  assert (M : m_get m' n = Some (marr d', N.to_nat (nid n))).
  { unfold m_get. rewrite Dn. cbn [m_getDoc]. rewrite (k_doc _ _ _ _ _ K), (k_rev _ _ _ _ _ K), Rv, N.eqb_refl.
    unfold m_at. pose proof (k_len _ _ _ _ _ K). destruct (N.ltb_spec (nid n) (N.of_nat (mlen d'))); [reflexivity|lia]. }
  split; [exact M|]. rewrite M in A. destruct A as (r1 & d1 & s1 & Dn1 & D1 & _ & Q & _ & G1 & Gn1 & _).
  exists s1. rewrite G1 in S. simpl in S. injection S as S. split; [exact G1|]. split; [exact S|]. split; [exact Gn1|].
  apply (k_read _ _ _ _ _ K).
  - eapply slot_inb; eauto.
  - intros j x Hx Hj O. assert (N.to_nat (nid n) = j); [|lia].
    eapply (proj2 (proj2 (proj2 (i_doc m I r d D)))); [|exact O]. unfold own. rewrite G. exact Hx.
Qed.

Lemma Set_agree : forall pol m n key v, inv m -> agree (m_Set pol m n key v) (Node_Set (worldOf m) n key v).
Proof.
  intros pol m n key v I. unfold m_Set, Node_Set. node_get m n I p.
  rewrite Dn, G. cbn [snode ninfo]. destruct (info_IsObject (sinfo s)); [|apply agree_self; exact I].
  rewrite m_Document_agree. pose proof (coa_sim pol m r d (m_Document m v) (nid v) (nid n) I D) as C.
  destruct (m_copyOrAdopt pol m r (m_Document m v) (nid v) (nid n)) as [[m' id']| |],
    (copyOrAdopt (worldOf m) r (m_Document m v) (nid v) (nid n)) as [[w' id]| |]; simpl in C; try contradiction; try exact Logic.I.
  destruct C as (-> & I' & <- & d' & K). cbn [bind].
  destruct (id <? maxUint)%N; [|apply agree_self; exact I'].
  destruct (kept_get m r d m' d' n s I I' K Dn Rv D L G) as (M & s' & G' & Sv & Gn' & _).
  rewrite M, G', Gn'. pose proof (k_doc _ _ _ _ _ K) as D'.
  pose proof (slot_inb m' r d' _ s' I' D' G') as Hb.
  assert (L' : N.to_nat (nid n) < mlen d') by (pose proof (k_len _ _ _ _ _ K); lia).
  cbn [snode nvalues]. rewrite assignKey_index. unfold m_assignKey.
  destruct (keyIndex key (sread (mheap m') (svals s'))) as [i|] eqn:Ki.
  - apply keyIndex_lt in Ki. rewrite sread_length in Ki by exact Hb.
    destruct (inplace_node m' n r d' s'
      (wput (mheap m') (svals s') i (mkV id (vkey (nth i (sread (mheap m') (svals s')) zeroV))))
      (setVals s' (svals s')) I' Dn D' L' G' (wrel_wput _ _ _ _)) as [J1 J2].
    + apply inb_wset. exact Hb.
    + apply keep_arr. reflexivity.
    + split; [exact J1|]. rewrite J2. unfold snode, withValues. simpl. rewrite sread_wput by assumption. reflexivity.
  - destruct (goAppend pol (mheap m') (svals s') (mkV id key)) as [h1 t] eqn:A.
    destruct (append_read _ _ _ _ _ _ Hb A) as (Ib & Rd & Cs).
    destruct (inplace_node m' n r d' s' h1 (setVals s' t) I' Dn D' L' G' (wrel_append _ _ _ _ _ _ A)) as [J1 J2].
    + exact Ib.
    + intros x Hx. destruct Cs as [(Q & _)|(y & Q & Ly & _)]; [left; simpl in Hx; congruence|].
      right. simpl in Hx. intros r2 d2 j D2 O. apply wf_own_lt in O; [|apply (i_doc m' I' r2 d2 D2)].
      assert (x = y) by congruence. lia.
    + split; [exact J1|]. rewrite J2. unfold snode, withValues. simpl. rewrite Rd. reflexivity.
Qed.

Lemma Replace_agree : forall pol m n i v, inv m -> agree (m_Replace pol m n i v) (Node_Replace (worldOf m) n i v).
Proof.
  intros pol m n i v I. unfold m_Replace, Node_Replace. node_get m n I p.
  rewrite Dn, G. cbn [snode ninfo nvalues]. destruct (info_IsArray (sinfo s)); [|apply agree_self; exact I].
  rewrite (sread_length _ _ (slot_inb m r d _ s I D G)).
  destruct (inRange i (slen (svals s))) as [k|]; [|apply agree_self; exact I].
  rewrite m_Document_agree. pose proof (coa_sim pol m r d (m_Document m v) (nid v) (nid n) I D) as C.
  destruct (m_copyOrAdopt pol m r (m_Document m v) (nid v) (nid n)) as [[m' id']| |],
    (copyOrAdopt (worldOf m) r (m_Document m v) (nid v) (nid n)) as [[w' id]| |]; simpl in C; try contradiction; try exact Logic.I.
  destruct C as (-> & I' & <- & d' & K). cbn [bind].
  destruct (id <? maxUint)%N; [|apply agree_self; exact I'].
  destruct (kept_get m r d m' d' n s I I' K Dn Rv D L G) as (M & s' & G' & Sv & Gn' & _).
  rewrite M, G', Gn'. pose proof (k_doc _ _ _ _ _ K) as D'.
  pose proof (slot_inb m' r d' _ s' I' D' G') as Hb.
  assert (L' : N.to_nat (nid n) < mlen d') by (pose proof (k_len _ _ _ _ _ K); lia).
  cbn [snode nvalues]. rewrite sread_length by exact Hb.
  destruct (Nat.ltb_spec k (slen (svals s'))) as [Lk|Lk]; [|exact Logic.I].
  set (h1 := wput (mheap m') (svals s') k (mkV id [])).
  destruct (inplace_node m' n r d' s' h1 (setVals s' (svals s')) I' Dn D' L' G' (wrel_wput _ _ _ _)) as [J1 J2].
  - apply inb_wset. exact Hb.
  - apply keep_arr. reflexivity.
  - replace (setVals s' (svals s')) with s' in J1, J2 by (destruct s'; reflexivity).
    rewrite sput_id in J1, J2 by (unfold h1, wput; rewrite wset_sget; exact G').
    split; [exact J1|]. rewrite J2. unfold snode, withValues. simpl. unfold h1. rewrite sread_wput by assumption. reflexivity.
Qed.

(* ---- Append ---- *)
(* vv during the loop: in the record's array beyond its values, or in an array of its own *)
Definition pv (m : mem) (d : mdoc) (i : nat) (vv : slice) (l : list V) : Prop :=
  inb (mheap m) vv /\ sread (mheap m) vv = l /\
  exists s, sget (mheap m) (marr d, i) = Some s /\
    ((sarr vv = sarr (svals s) /\ soff vv = soff (svals s) /\ slen (svals s) <= slen vv) \/
     (exists x, sarr vv = Some x /\ unowned m x)).

(* writes that no record can see *)
Lemma inv_W : forall m o h', inv m -> wrel o (mheap m) h' ->
  (forall r d j t, nth_error (mdocs m) r = Some d -> sget (mheap m) (marr d, j) = Some t ->
     sread h' (svals t) = sread (mheap m) (svals t)) ->
  inv (withHeap m h') /\ worldOf (withHeap m h') = worldOf m.
Proof.
  intros m o h' I W R. split.
  - constructor; cbn [withHeap mheap mdocs].
    + intros r d D. destruct (i_doc m I r d D) as (Ja & Jl & Jw). rewrite (w_n _ _ _ W), (wrel_narr _ _ _ _ W).
      split; [exact Ja|]. split; [exact Jl|]. eapply wrel_wf; eauto.
    + intros. eapply i_arr; eauto.
    + intros r r' d d' i i' x D D' O O'. rewrite (wrel_own _ _ _ _ _ W) in O. rewrite (wrel_own _ _ _ _ _ W) in O'. eapply i_own; eauto.
  - apply nth_error_ext. intro r. rewrite !worldOf_nth. cbn [withHeap mheap mdocs].
    destruct (nth_error (mdocs m) r) as [d|] eqn:D; [|reflexivity]. simpl. f_equal. unfold sdoc. f_equal.
    apply nth_error_ext. intro j. rewrite !nth_error_map, !nth_error_firstn, (wrel_narr _ _ _ _ W).
    destruct (j <? mlen d); [|reflexivity]. destruct (nth_error (narr (mheap m) (marr d)) j) as [t|] eqn:Gt; [|reflexivity].
    simpl. f_equal. unfold snode. f_equal. eapply R; eauto.
Qed.

Lemma pv_append : forall pol m r d i vv l v h' vv', inv m -> nth_error (mdocs m) r = Some d -> pv m d i vv l ->
  goAppend pol (mheap m) vv v = (h', vv') ->
  inv (withHeap m h') /\ worldOf (withHeap m h') = worldOf m /\ pv (withHeap m h') d i vv' (l ++ [v]).
Proof.
  intros pol m r d i vv l v h' vv' I D (Hb & Hr & s & G & Cs) A.
  pose proof (wrel_append _ _ _ _ _ _ A) as W. destruct (append_read _ _ _ _ _ _ Hb A) as (Ib & Rd & Ca).
  assert (RR : forall r' d' j t, nth_error (mdocs m) r' = Some d' -> sget (mheap m) (marr d', j) = Some t ->
             sread h' (svals t) = sread (mheap m) (svals t)).
  { intros r' d' j t D' Gt. pose proof (slot_inb m r' d' j t I D' Gt) as Ht.
    assert (Dj : sarr (svals t) <> sarr vv \/ sarr (svals t) = None ->
                 sread h' (svals t) = sread (mheap m) (svals t)) by (intro N; eapply wrel_read; eauto).
    destruct (sarr (svals t)) as [x|] eqn:Hx; [|apply Dj; auto].
    destruct Cs as [(Q1 & Q2 & Q3)|(y & Q1 & U)].
    2:{ apply Dj. left. intro E. apply (U r' d' j D'). unfold own. rewrite Gt, Hx. congruence. }
    destruct (sarr vv) as [y|] eqn:Hy; [|apply Dj; left; discriminate].
    destruct (Nat.eq_dec x y) as [->|Ne]; [|apply Dj; left; congruence].
    assert (O1 : own (mheap m) (marr d') j = Some y) by (unfold own; rewrite Gt; exact Hx).
    assert (O2 : own (mheap m) (marr d) i = Some y) by (unfold own; rewrite G; congruence).
    assert (r' = r) by (exact (i_own m I _ _ _ _ _ _ _ D' D O1 O2)). subst r'. rewrite D in D'. injection D' as <-.
    assert (j = i) by (eapply (proj2 (proj2 (proj2 (i_doc m I r d D)))); eauto). subst j.
    rewrite G in Gt. injection Gt as <-.
    replace (svals s) with (sto vv (slen (svals s))).
    2:{ destruct vv as [va vo vl], (svals s) as [ta to tl]. cbn [sarr soff slen sto] in *. unfold sto. simpl. congruence. }
    rewrite !sread_sto by exact Q3. f_equal. destruct Ca as [(_ & _ & _ & Rv)|(z & Q & Lz)]; [exact Rv|].
    (* a new array was made: nothing written to the old *)
    unfold goAppend in A. destruct (slen vv <? scap (mheap m) vv) eqn:Lt.
    - injection A as <- <-. simpl in Q. rewrite Hy in Q. injection Q as <-.
      unfold inb in Hb. rewrite Hy in Hb. lia.
    - destruct (valloc (mheap m) (sread (mheap m) vv ++ [v] ++ repeat zeroV (polV pol (length (varrs (mheap m)))))) as [h2 x2] eqn:Al.
      injection A as <- <-. apply sread_same. intros x Hx'. eapply valloc_varr_old; eauto.
      unfold inb in Hb. rewrite Hx' in Hb. apply Hb. }
  destruct (inv_W m (sarr vv) h' I W RR) as [J1 J2]. split; [exact J1|]. split; [exact J2|].
  split; [exact Ib|]. split; [cbn [withHeap mheap]; rewrite Rd, Hr; reflexivity|].
  exists s. cbn [withHeap mheap]. rewrite (wrel_sget _ _ _ _ W). split; [exact G|].
  destruct Ca as [(E1 & E2 & E3 & _)|(y & E1 & Ly & _)].
  - destruct Cs as [(Q1 & Q2 & Q3)|(x & Q1 & U)].
    + left. split; [congruence|]. split; [congruence|lia].
    + right. exists x. split; [congruence|]. intros r' d' j D'. cbn [withHeap mheap mdocs] in *.
      rewrite (wrel_own _ _ _ _ _ W). exact (U r' d' j D').
  - right. exists y. split; [exact E1|]. intros r' d' j D'. cbn [withHeap mheap mdocs] in *.
    rewrite (wrel_own _ _ _ _ _ W). intro O. apply wf_own_lt in O; [lia|]. apply (i_doc m I r' d' D').
Qed.

Lemma pv_kept : forall m r d m' d' i vv l, inv m -> nth_error (mdocs m) r = Some d -> i < mlen d ->
  kept m r d m' d' -> pv m d i vv l -> pv m' d' i vv l.
Proof.
  intros m r d m' d' i vv l I D Li K (Hb & Hr & s & G & Cs).
  pose proof (k_slot _ _ _ _ _ K _ Li) as S. rewrite G in S.
  destruct (sget (mheap m') (marr d', i)) as [s'|] eqn:G'; [|discriminate]. simpl in S. injection S as S.
  split; [apply (k_inb _ _ _ _ _ K); exact Hb|]. split.
  - rewrite <- Hr. apply (k_read _ _ _ _ _ K); [exact Hb|]. intros j x Hx Hj O.
    destruct Cs as [(Q1 & _)|(y & Q1 & U)].
    + assert (i = j); [|lia]. eapply (proj2 (proj2 (proj2 (i_doc m I r d D)))); [|exact O].
      unfold own. rewrite G. congruence.
    + apply (U r d j D). congruence.
  - exists s'. split; [exact G'|]. rewrite S. destruct Cs as [Q|(y & Q1 & U)]; [left; exact Q|].
    right. exists y. split; [exact Q1|]. apply (k_unowned _ _ _ _ _ K); [|exact U].
    unfold inb in Hb. rewrite Q1 in Hb. apply Hb.
Qed.

Lemma appendIds_sim : forall pol r to rev vals m d i vv l, inv m -> nth_error (mdocs m) r = Some d -> i < mlen d ->
  mrev d = rev -> pv m d i vv l ->
  match m_appendIds pol m r to vals vv, appendIds (worldOf m) r to vals l with
  | Ok (m', vv'), Ok (w, l') => inv m' /\ worldOf m' = w /\
      exists d', nth_error (mdocs m') r = Some d' /\ i < mlen d' /\ mrev d' = rev /\ pv m' d' i vv' l'
  | Panic, Panic | Diverge, Diverge => True
  | _, _ => False
  end.
Proof.
  intros pol r to rev. induction vals as [|v vals IH]; intros m d i vv l I D Li Rv P; cbn [m_appendIds appendIds].
  - split; [exact I|]. split; [reflexivity|]. exists d. auto.
  - rewrite m_Document_agree. pose proof (coa_sim pol m r d (m_Document m v) (nid v) to I D) as C.
    destruct (m_copyOrAdopt pol m r (m_Document m v) (nid v) to) as [[m' id']| |],
      (copyOrAdopt (worldOf m) r (m_Document m v) (nid v) to) as [[w' id]| |]; simpl in C; try contradiction; try exact Logic.I.
    destruct C as (-> & I' & <- & d' & K). cbn [bind].
    destruct (goAppend pol (mheap m') vv (mkV id [])) as [h2 vv2] eqn:A.
    pose proof (pv_kept m r d m' d' i vv l I D Li K P) as P'.
    destruct (pv_append pol m' r d' i vv l _ h2 vv2 I' (k_doc _ _ _ _ _ K) P' A) as (J1 & J2 & J3).
    rewrite <- J2. apply (IH (withHeap m' h2) d'); auto.
    + exact (k_doc _ _ _ _ _ K).
    + pose proof (k_len _ _ _ _ _ K). lia.
    + rewrite (k_rev _ _ _ _ _ K). exact Rv.
Qed.

Lemma Append_agree : forall pol m n vals, inv m -> agree (m_Append pol m n vals) (Node_Append (worldOf m) n vals).
Proof.
  intros pol m n vals I. unfold m_Append, Node_Append. destruct vals as [|v0 vals]; [apply agree_self; exact I|].
  remember (v0 :: vals) as vs. clear Heqvs v0 vals. node_get m n I p.
  rewrite Dn, G. cbn [snode ninfo nvalues]. destruct (info_IsArray (sinfo s)); [|apply agree_self; exact I].
  pose proof (slot_inb m r d _ s I D G) as Hb.
  assert (P : pv m d (N.to_nat (nid n)) (svals s) (sread (mheap m) (svals s))).
  { split; [exact Hb|]. split; [reflexivity|]. exists s. auto 6. }
  pose proof (appendIds_sim pol r (nid n) (nrev n) vs m d _ _ _ I D L Rv P) as A.
  destruct (m_appendIds pol m r (nid n) vs (svals s)) as [[m' vv]| |],
    (appendIds (worldOf m) r (nid n) vs (sread (mheap m) (svals s))) as [[w' l]| |]; try contradiction; try exact Logic.I.
  destruct A as (I' & <- & d' & D' & L' & Rv' & P'). cbn [bind].
  pose proof (m_get_agree m' n I') as Ag.
  assert (M : m_get m' n = Some (marr d', N.to_nat (nid n))).
  { unfold m_get. rewrite Dn. cbn [m_getDoc]. rewrite D', Rv', N.eqb_refl. unfold m_at.
    destruct (N.ltb_spec (nid n) (N.of_nat (mlen d'))); [reflexivity|lia]. }
  rewrite M in *. destruct Ag as (r1 & d1 & s1 & Dn1 & D1 & _ & Q & _ & G1 & Gn1 & _). rewrite G1, Gn1.
  destruct P' as (Ib & Rd & s2 & G2 & Cs). rewrite G1 in G2. injection G2 as <-.
  destruct (inplace_node m' n r d' s1 (mheap m') (setVals s1 vv) I' Dn D' L' G1 (wrel_refl _ _)) as [J1 J2].
  - exact Ib.
  - intros x Hx. simpl in Hx. destruct Cs as [(Q1 & _)|(y & Q1 & U)]; [left; congruence|].
    right. assert (x = y) by congruence. subst. exact U.
  - split; [exact J1|]. rewrite J2. unfold snode, withValues. simpl. rewrite Rd. reflexivity.
Qed.

(* ---- histories ---- *)
Lemma mstep_agree : forall pol m c, inv m -> agree (mstep pol m c) (step (worldOf m) c).
Proof.
  intros pol m c I. destruct c; cbn [mstep step].
  - apply NewDoc_agree; exact I.
  - apply Reset_agree; exact I.
  - apply Parse_agree; exact I.
  - apply newNode_agree; exact I.
  - apply newNode_agree; exact I.
  - apply newNode_agree; exact I.
  - apply newNode_agree; exact I.
  - apply newNode_agree; exact I.
  - apply newNode_agree; exact I.
  - apply newNode_agree; exact I.
  - apply Set_agree; exact I.
  - apply Append_agree; exact I.
  - apply Slice_agree; exact I.
  - apply Replace_agree; exact I.
  - apply Remove_agree; exact I.
  - apply Strip_agree; exact I.
  - apply Del_agree; exact I.
  - apply setScalar_agree; exact I.
  - apply setScalar_agree; exact I.
  - apply setScalar_agree; exact I.
  - apply setScalar_agree; exact I.
  - apply setScalar_agree; exact I.
Qed.

Lemma mrun_agree : forall pol cs m, inv m -> agree (mrun pol m cs) (run (worldOf m) cs).
Proof.
  intros pol. induction cs as [|c cs IH]; intros m I; [apply agree_self; exact I|]. cbn [mrun run].
  pose proof (mstep_agree pol m c I) as A.
  destruct (mstep pol m c) as [m'| |], (step (worldOf m) c) as [w'| |]; simpl in A; try contradiction; try exact Logic.I.
  destruct A as [I' <-]. cbn [bind]. apply IH. exact I'.
Qed.

Lemma mrun_refines : forall pol cs, mapRes worldOf (mrun pol emptyMem cs) = run [] cs.
Proof.
  intros pol cs. pose proof (mrun_agree pol cs emptyMem inv_empty) as A. change (worldOf emptyMem) with (@nil doc) in A.
  destruct (mrun pol emptyMem cs), (run [] cs); simpl in *; try contradiction; auto. destruct A as [_ ->]. reflexivity.
Qed.

Lemma mrun_exclusive : forall pol cs m, mrun pol emptyMem cs = Ok m -> exclusive m.
Proof.
  intros pol cs m H. pose proof (mrun_agree pol cs emptyMem inv_empty) as A. rewrite H in A.
  destruct (run (worldOf emptyMem) cs); simpl in A; try contradiction. apply inv_exclusive. apply A.
Qed.
