(* Parsing again into a document that has been reset. *)
From Verif Require Import Bytes Tables Types JsonSpec Parser Doc DocSpec DocProofs Api LexProofs ParserProofs ParserThms
  Mem MemSpec MemHeap MemEff MemInv MemThms MemCost MemReuse ResSpec ResThms.

Lemma flat_layouts (f : node -> nat) vs : forall b,
  Forall (fun v => forall base, map f (layout base v) = children v) vs ->
  map f (layouts b vs) = flat_map children vs.
Proof. induction vs as [|v vs IH]; intros b F; auto. inversion F; subst. simpl. rewrite map_app, H1, IH; auto. Qed.
Lemma flat_layoutm (f : node -> nat) ms : forall b,
  Forall (fun m : bytes * jval => forall base, map f (layout base (snd m)) = children (snd m)) ms ->
  map f (layoutm b ms) = flat_map (fun m => children (snd m)) ms.
Proof. induction ms as [|v vs IH]; intros b F; auto. inversion F; subst. simpl. rewrite map_app, H1, IH; auto. Qed.

Definition arity (n : node) : nat := length (nvalues n).

Lemma layout_children v : forall base, map arity (layout base v) = children v.
Proof.
  induction v using jval_ind'; intros base; try reflexivity.
  - rewrite layout_arr. cbn [map children]. f_equal; [apply arrVs_length|apply flat_layouts; exact H].
  - rewrite layout_obj. cbn [map children]. f_equal; [apply objVs_length|apply flat_layoutm; exact H].
Qed.

Lemma rootflag_arity l : map arity (rootflag l) = map arity l.
Proof. destruct l; reflexivity. Qed.

Lemma fits_le l l' : fits l l' -> length l <= length l' /\ forall i x, nth_error l i = Some x -> exists y, nth_error l' i = Some y /\ x <= y.
Proof.
  induction 1 as [l|x y l l' L F (A & B)].
  - split; [simpl; lia|]. intros [|i] x E; discriminate E.
  - split; [simpl; lia|]. intros [|i] z E; [injection E as <-; exists y; auto|]. exact (B i z E).
Qed.

(* What the memory holds after a parse into an empty document. *)
Lemma parsed_slots m r d s m' v : inv m -> nth_error (mdocs m) r = Some d -> mlen d = 0 -> begins s v -> m_Parse m r s = Ok m' ->
  inv m' /\ exists d', nth_error (mdocs m') r = Some d' /\ mlen d' = length (children v) /\
    forall i x, i < mlen d' -> sget (mheap m') (marr d', i) = Some x -> nth_error (children v) i = Some (slen (svals x)).
Proof.
  intros I D L0 (s1 & w & tail & -> & K1 & K2 & K3) P.
  pose proof (Parse_agree m r (s1 ++ w ++ tail) I) as A. rewrite P in A.
  assert (Dw : nth_error (worldOf m) r = Some (sdoc (mheap m) d)) by (rewrite worldOf_nth, D; reflexivity).
  assert (E0 : dnodes (sdoc (mheap m) d) = []) by (simpl; rewrite L0; reflexivity).
  set (W' := putDoc (worldOf m) r (mkDoc (rootflag (layout 0 v)) (drev (sdoc (mheap m) d)))).
  assert (PW : Document_Parse (worldOf m) r (s1 ++ w ++ tail) = Ok (W', (mkN 0 (drev (sdoc (mheap m) d)) (Some r), tail, None))).
  { apply Parse_ok_iff. exists (sdoc (mheap m) d), s1, w, v. rewrite E0. repeat (split; [auto|]). reflexivity. }
  rewrite PW in A. simpl in A. destruct A as (I' & EW). split; [exact I'|].
  assert (Dw' : nth_error (worldOf m') r = Some (mkDoc (rootflag (layout 0 v)) (drev (sdoc (mheap m) d)))).
  { rewrite EW. unfold W'. eapply putDoc_same. exact Dw. }
  pose proof Dw' as Dw2. rewrite worldOf_nth in Dw'. destruct (nth_error (mdocs m') r) as [d'|] eqn:D'; [|discriminate]. simpl in Dw'.
  injection Dw' as En _. exists d'. split; [reflexivity|].
  assert (Ea : map arity (rootflag (layout 0 v)) = children v) by (rewrite rootflag_arity; apply layout_children).
  rewrite <- En in Ea. rewrite <- Ea.
  pose proof (nodes_length m' r d' I' D') as NL. simpl in NL. split; [rewrite map_length; auto|].
  intros i x Hi Gx. rewrite map_map, nth_error_map, nth_error_firstn.
  destruct (Nat.ltb_spec i (mlen d')); [|lia]. unfold sget in Gx. cbn [fst snd] in Gx. rewrite Gx. simpl. f_equal.
  unfold arity, snode. cbn [nvalues]. pose proof (proj1 (proj2 (proj2 (i_doc m' I' r d' D'))) i x Gx) as B.
  unfold inb in B. unfold sread. destruct (sarr (svals x)); [|simpl; auto]. rewrite firstn_length, skipn_length. lia.
Qed.

(* There is room in an empty document for a tree with these children. *)
Definition room (m : mem) (r : ref) (l : list nat) : Prop :=
  exists d, nth_error (mdocs m) r = Some d /\ length l <= length (narr (mheap m) (marr d)) /\
    forall i c x, nth_error l i = Some c -> sget (mheap m) (marr d, i) = Some x -> c <= scap (mheap m) (svals x).

Lemma room_parsed m r d s m' v : inv m -> nth_error (mdocs m) r = Some d -> mlen d = 0 -> begins s v -> m_Parse m r s = Ok m' ->
  inv m' /\ room m' r (children v).
Proof.
  intros I D L0 B P. destruct (parsed_slots _ _ _ _ _ _ I D L0 B P) as (I' & d' & D' & L' & S'). split; [exact I'|].
  exists d'. split; [exact D'|]. pose proof (i_doc m' I' r d' D') as (_ & Ld & W & _). split; [lia|].
  intros i c x Ec Gx. assert (Hi : i < mlen d') by (rewrite L'; apply nth_error_Some; congruence).
  rewrite (S' i x Hi Gx) in Ec. injection Ec as <-. pose proof (W i x Gx) as Bx. unfold inb in Bx. unfold scap.
  destruct (sarr (svals x)); lia.
Qed.

Lemma reset_parse m r l s' v' m1 m2 : inv m -> room m r l -> m_Reset m r = Ok m1 -> m_Parse m1 r s' = Ok m2 ->
  begins s' v' -> fits (children v') l -> inv m2 /\ room m2 r l /\ sized (mheap m) (mheap m2).
Proof.
  intros I (d' & D' & Ll & Rm) R P2 B2 F. pose proof (Reset_agree m r I) as Q. rewrite R in Q.
  assert (I1 : inv m1) by (unfold agree in Q; destruct (Document_Reset _ _); try contradiction; apply Q).
  unfold m_Reset in R. rewrite D' in R. injection R as <-. clear Q.
  set (m1 := mkM _ _) in *. set (d1 := mkMD (marr d') 0 ((mrev d' + 1) mod two64)%N) in *.
  assert (D1 : nth_error (mdocs m1) r = Some d1).
  { unfold m1, putMD. cbn [mdocs]. apply nth_error_replaceNth_same. apply nth_error_Some. congruence. }
  assert (H1 : mheap m1 = mheap m) by reflexivity. clearbody m1.
  destruct (parsed_slots _ _ _ _ _ _ I1 D1 eq_refl B2 P2) as (I2 & d2 & D2 & L2 & S2). split; [exact I2|].
  unfold m_Parse in P2. rewrite D1 in P2. cbn [marr mlen d1] in P2. rewrite H1 in P2.
  pose proof (proj1 (good_all (parseFuel s')) (mheap m) (marr d') 0 s' 0%N (Nat.le_0_l _)) as G.
  destruct (m_value (parseFuel _) (mheap m) (marr d') 0 _ 0) as [h a n pos t|h e| |]; try discriminate P2.
  2:{ (* a failed parse leaves the document empty *)
    exfalso. injection P2 as <-. change (nth_error (mdocs m1) r = Some d2) in D2. rewrite D1 in D2. injection D2 as <-. simpl in L2. destruct v'; discriminate L2. }
  destruct (sget h (a, 0)) as [x0|] eqn:G0; [|discriminate]. injection P2 as <-.
  cbn [mdocs mheap] in *. pose proof D2 as D2'. unfold putMD in D2. rewrite nth_error_replaceNth_same in D2 by (apply nth_error_Some; congruence).
  injection D2 as <-. cbn [mlen marr] in *. destruct (fits_le _ _ F) as (FL & FN).
  set (h2 := sput h (a, 0) (mkSlot (N.lor (sinfo x0) infRoot) (sraw x0) (svals x0))) in *.
  assert (Sv : forall i y, sget h (a, i) = Some y -> exists y', sget h2 (a, i) = Some y' /\ svals y' = svals y).
  { intros i y Gy. unfold h2. destruct (Nat.eq_dec i 0) as [->|Ni].
    - rewrite sget_sput_same by (eapply sget_lt; eauto). eexists. split; [reflexivity|]. cbn [svals]. congruence.
    - rewrite sget_sput_other by exact Ni. eauto. }
  destruct G as (_ & Ln & _ & G). destruct G as (-> & Sz & _ & Cap).
  - split; [lia|]. intros i x y Hi Gx Gy. destruct (Sv _ _ Gy) as (y' & Gy' & Ey). apply S2 in Gy'; [|lia]. rewrite Ey in Gy'.
    destruct (FN _ _ Gy') as (c & Ec & Lc). pose proof (Rm _ _ _ Ec Gx). lia.
  - pose proof (sized_sput h (marr d', 0) (mkSlot (N.lor (sinfo x0) infRoot) (sraw x0) (svals x0))) as Sp. fold h2 in Sp.
    assert (Sa : sized (mheap m) h2) by (eapply sized_trans; eauto). split; [|exact Sa].
    exists (mkMD (marr d') n (mrev d1)). split; [exact D2'|]. cbn [marr]. split; [rewrite (sized_len _ _ _ Sa); exact Ll|].
    intros i c z Ec Gz. cbn [mheap] in Gz |- *. assert (Lz : i < length (narr h (marr d'))) by (rewrite <- (sized_len _ _ _ Sp); eapply sget_lt; eauto).
    assert (Y : exists y, sget h (marr d', i) = Some y).
    { unfold sget. cbn [fst snd]. destruct (nth_error (narr h (marr d')) i) eqn:E; [eauto|]. apply nth_error_None in E. lia. }
    assert (X : exists x, sget (mheap m) (marr d', i) = Some x).
    { rewrite (sized_len _ _ _ Sz) in Lz. unfold sget. cbn [fst snd]. destruct (nth_error (narr (mheap m) (marr d')) i) eqn:E; [eauto|]. apply nth_error_None in E. lia. }
    destruct Y as (y & Gy), X as (x & Gx). destruct (Sv _ _ Gy) as (y' & Gy' & Ey). rewrite Gz in Gy'. injection Gy' as <-.
    rewrite Ey, (scap_sized _ _ _ Sa). pose proof (Cap _ _ _ Gx Gy). pose proof (Rm _ _ _ Ec Gx). lia.
Qed.

Lemma mrun_app pol cs1 cs2 : forall m, mrun pol m (cs1 ++ cs2) = (let! m' := mrun pol m cs1 in mrun pol m' cs2).
Proof. induction cs1 as [|c cs IH]; intro m; simpl; auto. destruct (mstep pol m c); simpl; auto. Qed.

Definition rounds (r : ref) (ts : list bytes) : list call := flat_map (fun t => [CReset r; CParse r t]) ts.

Lemma rounds_lem pol r l ts : Forall (fun t => exists v, begins t v /\ fits (children v) l) ts -> forall m m',
  inv m -> room m r l -> mrun pol m (rounds r ts) = Ok m' -> sized (mheap m) (mheap m').
Proof.
  induction 1 as [|t ts (v & B & F) Fs IH]; intros m m' I Rm R.
  - injection R as <-. apply sized_refl.
  - cbn [rounds flat_map app mrun mstep] in R. destruct (m_Reset m r) as [m1| |] eqn:R1; try discriminate R. cbn [bind] in R.
    destruct (m_Parse m1 r t) as [m2| |] eqn:P2; try discriminate R. cbn [bind] in R.
    destruct (reset_parse _ _ _ _ _ _ _ I Rm R1 P2 B F) as (I2 & Rm2 & S2).
    eapply sized_trans; [exact S2|]. eapply IH; eauto.
Qed.

Lemma C76_lem pol cs r s v ts m m' :
  mrun pol emptyMem (cs ++ [CReset r; CParse r s]) = Ok m -> begins s v ->
  mrun pol m (flat_map (fun t => [CReset r; CParse r t]) ts) = Ok m' ->
  Forall (fun t => exists v', begins t v' /\ fits (children v') (children v)) ts ->
  sizes (mheap m') = sizes (mheap m).
Proof.
  intros R B R' F. rewrite mrun_app in R. pose proof (mrun_agree pol cs emptyMem inv_empty) as A.
  destruct (mrun pol emptyMem cs) as [m0| |]; try discriminate R. cbn [mrun mstep bind] in R.
  assert (I0 : inv m0) by (unfold agree in A; destruct (run _ cs); try contradiction; apply A).
  destruct (m_Reset m0 r) as [m0'| |] eqn:R0; try discriminate R. cbn [bind] in R.
  pose proof (Reset_agree m0 r I0) as Q. rewrite R0 in Q. unfold m_Reset in R0.
  destruct (nth_error (mdocs m0) r) as [d0|] eqn:D0; [|discriminate R0].
  assert (I0' : inv m0') by (unfold agree in Q; destruct (Document_Reset _ _); try contradiction; apply Q).
  assert (D0' : nth_error (mdocs m0') r = Some (mkMD (marr d0) 0 ((mrev d0 + 1) mod two64)%N)).
  { injection R0 as <-. unfold putMD. cbn [mdocs]. apply nth_error_replaceNth_same. apply nth_error_Some. congruence. }
  destruct (m_Parse m0' r s) as [m1| |] eqn:P; try discriminate R. injection R as <-.
  destruct (room_parsed _ _ _ _ _ _ I0' D0' eq_refl B P) as (I1 & Rm).
  destruct (rounds_lem pol r (children v) ts F m1 m' I1 Rm R') as [Sv Sn].
  unfold sizes. unfold vshape in Sv. unfold nshape in Sn. rewrite Sv, Sn. reflexivity.
Qed.

Lemma fits_refl l : fits l l.
Proof. induction l; constructor; auto. Qed.

(* A text that ends early makes its arrays again every time. *)
Definition noPol : policy := mkPol (fun _ => 0) (fun _ => 0) (fun _ => 0).
Lemma C76_early_lem : exists s m m',
  mrun noPol emptyMem [CNewDoc; CReset 0; CParse 0 s] = Ok m /\ mrun noPol m [CReset 0; CParse 0 s] = Ok m' /\
  sizes (mheap m) = ([1; 3], [0; 1; 3]) /\ sizes (mheap m') = ([1; 3; 1; 3], [0; 1; 3; 1; 3]).
Proof.
  exists (str "[1,2"). eexists. eexists. split; [vm_compute; reflexivity|]. split; [vm_compute; reflexivity|]. split; reflexivity.
Qed.
