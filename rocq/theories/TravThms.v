(* Strip, Lookup, iterators and independence of copies: C20 to C23. *)
From Coq Require Import Permutation.
From Verif Require Import Bytes Tables Types JsonSpec Parser LexProofs ParserProofs Doc DocSpec DocProofs ParserThms
  CopyProofs InvProofs Api OpProofs HistSpec HistProofs HistThms OpThms.

(* ---- unshared documents are forests ---- *)

Lemma reach_snoc ns a b : reach ns a b -> a = b \/ exists p n v, reach ns a p /\ getNode ns p = Some n /\ In v (nvalues n) /\ vid v = b.
Proof.
  induction 1 as [|a n v b G Hv R IH]; auto. right. destruct IH as [<-|(p & m & u & R1 & G1 & H1 & E1)].
  - exists a, n, v. repeat split; auto. constructor.
  - exists p, m, u. repeat split; auto. econstructor; eauto.
Qed.

Lemma reach_last ns a p n v : reach ns a p -> getNode ns p = Some n -> In v (nvalues n) -> reach ns a (vid v).
Proof. intros R G H. eapply reach_trans; eauto. econstructor; eauto. constructor. Qed.

Lemma reach_ind_last ns (P : N -> N -> Prop) : (forall a, P a a) ->
  (forall a p n v, reach ns a p -> P a p -> getNode ns p = Some n -> In v (nvalues n) -> P a (vid v)) ->
  forall a b, reach ns a b -> P a b.
Proof.
  intros H0 H1 a b R. assert (K : forall b c, reach ns b c -> reach ns a b -> P a b -> P a c).
  { clear b R. induction 1 as [|b n v c G Hv R IH]; auto. intros Rab Pab. apply IH.
    - eapply reach_last; eauto.
    - eapply H1; eauto. }
  apply (K a); auto. constructor.
Qed.

Lemma flat_map_split {A B} (f : A -> list B) l i a : nth_error l i = Some a ->
  flat_map f l = flat_map f (firstn i l) ++ f a ++ flat_map f (skipn (S i) l).
Proof.
  revert i. induction l as [|x l IH]; intros [|i]; simpl; try discriminate.
  - injection 1 as ->. auto.
  - intro H. rewrite (IH _ H), app_assoc. reflexivity.
Qed.

Lemma nth_error_firstn_lt {A} (l : list A) i j : i < j -> nth_error (firstn j l) i = nth_error l i.
Proof. revert i j. induction l as [|x l IH]; intros [|i] [|j] H; simpl; auto; try lia. apply IH. lia. Qed.

Lemma unique_parent ns p q n m u v : unshared ns -> getNode ns p = Some n -> getNode ns q = Some m ->
  In u (nvalues n) -> In v (nvalues m) -> vid u = vid v -> p = q.
Proof.
  unfold unshared. intros U Gp Gq Hu Hv E. destruct (N.eq_dec p q) as [|Hne]; auto. exfalso.
  pose proof (getNode_lt _ _ _ Gp). pose proof (getNode_lt _ _ _ Gq). rewrite getNode_nth in Gp, Gq by auto.
  assert (W : forall i j a b x y, (i < j)%nat -> nth_error ns i = Some a -> nth_error ns j = Some b -> In x (nvalues a) -> In y (nvalues b) -> vid x = vid y -> False).
  { intros i j a b x y Lij Ga Gb Hx Hy Exy. unfold refs in U. rewrite (flat_map_split _ _ _ _ Gb) in U.
    apply NoDup_app_inv in U as (_ & _ & D). apply (D (vid x)).
    - apply in_flat_map. exists a. split; [|apply in_map; auto].
      eapply nth_error_In. rewrite nth_error_firstn_lt; eauto.
    - apply in_or_app. left. rewrite Exy. apply in_map; auto. }
  destruct (Nat.lt_trichotomy (N.to_nat p) (N.to_nat q)) as [L|[L|L]].
  - eapply W; eauto.
  - apply Hne. lia.
  - eapply W; eauto.
Qed.

Lemma chain ns : unshared ns -> forall a x, reach ns a x -> forall b, reach ns b x -> reach ns a b \/ reach ns b a.
Proof.
  intro U. apply (reach_ind_last ns (fun a x => forall b, reach ns b x -> reach ns a b \/ reach ns b a)).
  - intros a b R. auto.
  - intros a p n v R IH G Hv b Rb. apply reach_snoc in Rb as [->|(q & m & u & Rq & Gq & Hu & E)].
    + left. eapply reach_last; eauto.
    + assert (q = p) by (eapply unique_parent; eauto). subst q. apply IH; auto.
Qed.

Lemma nodup_vids ns id n : unshared ns -> getNode ns id = Some n -> NoDup (map vid (nvalues n)).
Proof.
  intros U G. unfold unshared, refs in U. pose proof (getNode_lt _ _ _ G). rewrite getNode_nth in G by auto.
  rewrite (flat_map_split _ _ _ _ G) in U. apply NoDup_app_inv in U as (_ & U & _). apply NoDup_app_inv in U as (U & _). exact U.
Qed.

(* Different entries of one node have disjoint subtrees. *)
Lemma siblings ns id n t a v b u x : unshared ns -> denotes ns id t -> getNode ns id = Some n -> nvalues n = a ++ v :: b ->
  In u (a ++ b) -> reach ns (vid u) x -> reach ns (vid v) x -> False.
Proof.
  intros U D G E Hu Ru Rv.
  assert (Hv : In v (nvalues n)) by (rewrite E; apply in_or_app; simpl; auto).
  assert (Hu' : In u (nvalues n)) by (rewrite E; apply in_app_or in Hu; apply in_or_app; simpl; tauto).
  assert (Ne : vid u <> vid v).
  { pose proof (nodup_vids _ _ _ U G) as Nd. rewrite E, map_app in Nd. cbn [map] in Nd.
    apply NoDup_remove_2 in Nd. rewrite <- map_app in Nd. intro Eq. apply Nd. rewrite <- Eq. apply in_map; auto. }
  assert (W : forall y z, In y (nvalues n) -> In z (nvalues n) -> vid y <> vid z -> ~ reach ns (vid y) (vid z)).
  { intros y z Hy Hz Hyz R. apply reach_snoc in R as [|(q & m & s & Rq & Gq & Hs & Es)]; auto.
    assert (q = id) by (eapply unique_parent; eauto). subst q. exact (child_not_reach _ _ _ _ _ D G Hy Rq). }
  destruct (chain _ U _ _ Ru _ Rv) as [R|R]; [exact (W u v Hu' Hv Ne R)|exact (W v u Hv Hu' (fun e => Ne (eq_sym e)) R)].
Qed.

(* ---- Strip ---- *)

Lemma tailswap_map {A B} (f : A -> B) l : tailswap (map f l) = map f (tailswap l).
Proof.
  destruct l as [|x l _] using rev_ind; auto. unfold tailswap. rewrite map_app, !rev_app_distr. cbn.
  rewrite !removelast_last. reflexivity.
Qed.

Lemma F2_split_r {A B} (R : A -> B -> Prop) l a y b : Forall2 R l (a ++ y :: b) -> exists a' x b', l = a' ++ x :: b' /\ Forall2 R a' a /\ R x y /\ Forall2 R b' b.
Proof.
  intro H. apply Forall2_app_inv_r in H as (a' & l' & Ha & Hl & ->). inversion Hl; subst. eauto 10.
Qed.

Lemma strip_child ns ns' id nn a k t b va v vb t' : unshared ns -> denotes ns id (JObj (a ++ (k, t) :: b)) ->
  getNode ns id = Some nn -> nvalues nn = va ++ v :: vb -> length va = length a ->
  outside ns (vid v) ns ns' -> denotes ns' (vid v) t' ->
  getNode ns' id = Some nn /\ denotes ns' id (JObj (a ++ (k, t') :: b)).
Proof.
  intros U D G E La O Dv. destruct (denotes_obj_inv _ _ _ _ D G) as (Ty & Rw & F).
  assert (Gi : getNode ns' id = Some nn).
  { rewrite (O id); auto. eapply child_not_reach; eauto. rewrite E. apply in_or_app; simpl; auto. }
  split; auto. eapply d_obj; eauto. apply memb_F2. rewrite E in F |- *.
  apply F2_split_r in F as (a' & x & b' & E' & Fa & (Kx & Dx) & Fb).
  apply app_inj_length in E' as (<- & E'); [|rewrite La; symmetry; eapply F2_len; eauto]. injection E' as <- <-.
  assert (K : forall u m, In u (va ++ vb) -> memb ns u m -> memb ns' u m).
  { intros u m Hu (Ku & Du). split; auto. eapply frame; eauto. intros y Hy. unfold agree. f_equal. apply O. intro Rv.
    exact (siblings _ _ _ _ _ _ _ _ _ U D G E Hu Hy Rv). }
  apply F2_app; [|constructor].
  - eapply F2_mono; [|exact Fa]. intros; apply K; auto. apply in_or_app; auto.
  - split; auto.
  - eapply F2_mono; [|exact Fb]. intros; apply K; auto. apply in_or_app; auto.
Qed.

Lemma del_first_app {A} k (a b : list (bytes * A)) : ~ In k (map fst a) -> del_first k (a ++ b) = a ++ del_first k b.
Proof.
  induction a as [|[k' t] a IH]; cbn; auto. intro H. replace (bseqb k' k) with false; [f_equal; auto|].
  symmetry. apply bseqb_false. auto.
Qed.

Lemma list_max_in x l : In x l -> x <= list_max l.
Proof. induction l as [|y l IH]; [intros []|]. intros [->|H]; cbn [list_max fold_right]; fold (list_max l); [lia|]. apply IH in H. lia. Qed.

Lemma nth_mid {A} (a b : list A) x : nth_error (a ++ x :: b) (length a) = Some x.
Proof. rewrite nth_error_app2, Nat.sub_diag by lia. reflexivity. Qed.

Section Strip.
Context (key : bytes) (f : nat).
Hypothesis rec_ok : forall ns id t, denotes ns id t -> unshared ns -> jdepth t <= f ->
  exists ns', strip f key ns id = Ok ns' /\ denotes ns' id (strip_tree key t).
Let smap (m : bytes * jval) := (fst m, strip_tree key (snd m)).

Lemma strip_entry ns id nn a k t b : unshared ns -> denotes ns id (JObj (a ++ (k, t) :: b)) -> jdepth t <= f ->
  getNode ns id = Some nn ->
  exists v ns', nth_error (nvalues nn) (length a) = Some v /\ vkey v = k /\ strip f key ns (vid v) = Ok ns' /\ unshared ns' /\
    getNode ns' id = Some nn /\ denotes ns' id (JObj (a ++ (k, strip_tree key t) :: b)).
Proof.
  intros U D Hd G. destruct (denotes_obj_inv _ _ _ _ D G) as (Ty & Rw & F).
  apply F2_split_r in F as (va & v & vb & E & Fa & (Kv & Dv) & Fb). cbn in Kv, Dv.
  destruct (rec_ok ns (vid v) t Dv U Hd) as (ns' & Er & Dr). exists v, ns'.
  pose proof (F2_len _ _ _ Fa) as La. split; [rewrite E, <- La; apply nth_mid|]. split; auto. split; auto.
  split; [eapply shrunk_unshared; eauto; eapply strip_shrunk; eauto|].
  eapply strip_child; eauto. eapply strip_outside; eauto using shrunk_refl.
Qed.

Lemma stripFrom_ok id : forall b k ns nn a, unshared ns -> getNode ns id = Some nn -> denotes ns id (JObj (a ++ b)) ->
  (forall m, In m b -> jdepth (snd m) <= f) -> length b <= k ->
  exists ns', stripFrom (strip f key) id k ns (length a) = Ok ns' /\ denotes ns' id (JObj (a ++ map smap b)).
Proof.
  induction b as [|[kk t] b IH]; intros k ns nn a U G D Hd Hk.
  - cbn [map]. exists ns. split; auto. destruct k as [|k]; cbn [stripFrom]; auto. rewrite G.
    destruct (denotes_obj_inv _ _ _ _ D G) as (_ & _ & F). apply F2_len in F. rewrite app_nil_r in F.
    destruct (nth_error (nvalues nn) (length a)) as [v|] eqn:E; auto. apply nth_error_lt in E. lia.
  - destruct k as [|k]; [cbn in Hk; lia|]. cbn [stripFrom]. rewrite G.
    destruct (strip_entry ns id nn a kk t b U D (Hd _ (or_introl eq_refl)) G) as (v & ns1 & Ev & Kv & Er & U1 & G1 & D1).
    rewrite Ev, Er. cbn [bind].
    change ((kk, strip_tree key t) :: b) with ([(kk, strip_tree key t)] ++ b) in D1. rewrite app_assoc in D1.
    destruct (IH k ns1 nn _ U1 G1 D1) as (ns2 & E2 & D2); [intros; apply Hd; simpl; auto|cbn in Hk; lia|].
    exists ns2. rewrite app_length in E2. cbn [length] in E2. replace (length a + 1) with (S (length a)) in E2 by lia.
    split; auto. rewrite <- app_assoc in D2. exact D2.
Qed.

Lemma stripLoop_ok id : forall b ns nn a, unshared ns -> getNode ns id = Some nn -> denotes ns id (JObj (a ++ b)) ->
  (forall m, In m b -> jdepth (snd m) <= f) -> ~ In key (map fst a) ->
  exists ns', stripLoop (strip f key) id key (length b) ns (length a) = Ok ns' /\
    denotes ns' id (JObj (a ++ del_first key (map smap b))).
Proof.
  induction b as [|[kk t] b IH]; intros ns nn a U G D Hd Ha.
  - cbn. exists ns. auto.
  - cbn [length stripLoop]. rewrite G.
    destruct (denotes_obj_inv _ _ _ _ D G) as (Ty & Rw & F). pose proof F as F'.
    apply F2_split_r in F' as (va & v & vb & E & Fa & (Kv & Dv) & Fb). cbn in Kv, Dv. pose proof (F2_len _ _ _ Fa) as La.
    assert (Ev : nth_error (nvalues nn) (length a) = Some v) by (rewrite E, <- La; apply nth_mid).
    rewrite Ev. cbn [map smap fst snd del_first]. destruct (bseqb key (vkey v)) eqn:Ek.
    + apply bseqb_true in Ek. rewrite <- Kv, <- Ek, bseqb_refl.
      set (x := withValues nn (swapRemove (nvalues nn) (length a))).
      assert (Sx : sub nn x) by (eapply sub_swapRemove; eauto).
      assert (Vx : nvalues x = plug va vb) by (unfold x; cbn [nvalues withValues]; rewrite E, <- La; apply swapRemove_plug).
      assert (D1 : denotes (putNode ns id x) id (JObj (a ++ tailswap b))).
      { apply put_obj; auto.
        - eapply getNode_lt; eauto.
        - rewrite Vx. apply (F2_plug _ va vb a b); auto.
        - intros u Hu. eapply child_not_reach; eauto. eapply sub_in; eauto. }
      destruct (stripFrom_ok id (tailswap b) (length (swapRemove (nvalues nn) (length a))) (putNode ns id x) x a) as (ns2 & E2 & D2); auto.
      * eapply shrunk_unshared; [eapply shrunk_put; eauto|auto].
      * apply getNode_put_same. eapply getNode_lt; eauto.
      * intros m Hm. apply Hd. right. pose proof (plug_perm [] b) as P. unfold plug in P. cbn [app] in P.
        eapply Permutation_in; [symmetry; exact P|auto].
      * change (swapRemove (nvalues nn) (length a)) with (nvalues x). rewrite Vx.
        rewrite (F2_len _ _ _ (F2_plug _ _ _ _ _ Fa Fb)). unfold plug. rewrite app_length. lia.
      * exists ns2. split; auto. rewrite tailswap_map. exact D2.
    + destruct (strip_entry ns id nn a kk t b U D (Hd _ (or_introl eq_refl)) G) as (v' & ns1 & Ev' & _ & Er & U1 & G1 & D1).
      assert (v' = v) by congruence. subst v'. rewrite Er. cbn [bind].
      assert (Hk : kk <> key) by (intros ->; rewrite Kv, bseqb_refl in Ek; discriminate).
      replace (bseqb kk key) with false by (symmetry; apply bseqb_false; auto).
      change ((kk, strip_tree key t) :: b) with ([(kk, strip_tree key t)] ++ b) in D1. rewrite app_assoc in D1.
      destruct (IH ns1 nn _ U1 G1 D1) as (ns2 & E2 & D2).
      { intros; apply Hd; simpl; auto. }
      { rewrite map_app. intro H. apply in_app_or in H as [H|[H|[]]]; auto. }
      exists ns2. rewrite app_length in E2. cbn [length] in E2. replace (length a + 1) with (S (length a)) in E2 by lia.
      split; auto. rewrite <- app_assoc in D2. exact D2.
Qed.
End Strip.

Lemma strip_spec key : forall f ns id t, denotes ns id t -> unshared ns -> jdepth t <= f ->
  exists ns', strip f key ns id = Ok ns' /\ denotes ns' id (strip_tree key t).
Proof.
  induction f as [|f IH]; intros ns id t D U Hd; [destruct t; cbn in Hd; lia|].
  destruct (denotes_get _ _ _ D) as (nn & G). cbn [strip]. rewrite G.
  destruct (info_IsObject (ninfo nn)) eqn:Eo.
  - apply IsObject_type in Eo.
    assert (exists ms, t = JObj ms) as (ms & ->).
    { inversion D as [? m Gm Tm|? m Gm Tm|? m Gm Tm|? m Gm Tm|? m Gm Tm|? m ? Gm Tm|? m ms Gm Tm]; subst;
        assert (m = nn) by congruence; subst m; rewrite Eo in Tm; try discriminate. eauto. }
    cbn [jdepth] in Hd. destruct (denotes_obj_inv _ _ _ _ D G) as (_ & _ & F). rewrite (F2_len _ _ _ F).
    change 0 with (length (@nil (bytes * jval))).
    destruct (stripLoop_ok key f IH id ms ns nn [] U G D) as (ns' & E & D').
    + intros m Hm. apply (in_map (fun m => jdepth (snd m))) in Hm. apply list_max_in in Hm. lia.
    + intros [].
    + exists ns'. split; auto.
  - exists ns. split; auto. replace (strip_tree key t) with t; auto.
    inversion D as [? m Gm Tm|? m Gm Tm|? m Gm Tm|? m Gm Tm|? m Gm Tm|? m ? Gm Tm|? m ms Gm Tm]; subst; auto.
    assert (m = nn) by congruence. subst. apply IsObject_of in Tm. congruence.
Qed.

Lemma Strip_tree w n k t : tree_of w n t -> docs unshared w -> exists w', Node_Strip w n k = Ok w' /\ tree_of w' n (strip_tree k t).
Proof.
  intros T U. apply tree_live in T as (r & d & L & D). pose proof L as (En & Ed & Er).
  destruct (denotes_get _ _ _ D) as (nn & G).
  unfold Node_Strip. rewrite (live_get _ _ _ _ L), G, En, (live_nodes _ _ _ _ L).
  destruct (strip_spec k (depthFuel (dnodes d)) (dnodes d) (nid n) t D (U _ _ Ed)) as (ns' & -> & D').
  - apply denotes_depth in D. unfold depthFuel. lia.
  - cbn [bind]. eexists. split; [reflexivity|]. apply tree_live. eexists r, (mkDoc ns' (drev d)).
    split; [apply live_putNodes; auto|]. auto.
Qed.

Lemma tailswap_perm {A} (b : list A) : Permutation b (tailswap b).
Proof. exact (plug_perm [] b). Qed.

(* del_first drops one member with the key and keeps the others. *)
Lemma del_first_perm {A} k (ms : list (bytes * A)) :
  (exists t, assoc k ms = Some t /\ Permutation ms ((k, t) :: del_first k ms)) \/ (assoc k ms = None /\ del_first k ms = ms).
Proof.
  induction ms as [|[k' t] ms IH]; cbn; auto. destruct (bseqb k' k) eqn:E.
  - apply bseqb_true in E. subst. rewrite bseqb_refl. left. exists t. split; auto. constructor. apply tailswap_perm.
  - assert (k' <> k) by (intros ->; rewrite bseqb_refl in E; discriminate).
    replace (bseqb k k') with false by (symmetry; apply bseqb_false; auto).
    destruct IH as [(t' & A1 & P)|(A1 & ->)]; auto. left. exists t'. split; auto. rewrite P at 1. apply perm_swap.
Qed.

Lemma strip_clean k t : strippable k t -> ~ has_key k (strip_tree k t).
Proof.
  induction t using jval_ind'; intros S; inversion S as [ms' Hone Hsub|vs' Hno| | | | |]; subst; cbn [strip_tree]; try (intro X; inversion X; fail); auto.
  intro X. set (sm := map (fun m => (fst m, strip_tree k (snd m))) ms) in *.
  assert (P : Permutation sm (del_first k sm) \/ exists t, Permutation sm ((k, t) :: del_first k sm)).
  { destruct (del_first_perm k sm) as [(t & _ & P)|(_ & ->)]; eauto. }
  assert (I : forall m, In m (del_first k sm) -> In m sm).
  { intros m Hm. destruct P as [P|(t & P)]; eapply Permutation_in; try (symmetry; exact P); simpl; auto. }
  inversion X as [? Hk|? m Hm Hkm|]; subst.
  - (* the key is gone *)
    assert (Ks : map fst sm = map fst ms) by (unfold sm; rewrite map_map; reflexivity).
    assert (Hin : In k (map fst ms)).
    { rewrite <- Ks. apply in_map_iff in Hk as (m & <- & Hm). apply in_map; auto. }
    apply in_map_iff in Hin as ([k0 t0] & E0 & Hin). cbn in E0. subst k0. apply in_split in Hin as (a & b & Eab).
    specialize (Hone a t0 b Eab).
    destruct (del_first_perm k sm) as [(t & _ & P')|(An & _)].
    + apply (Permutation_map fst) in P'. rewrite Ks, Eab, map_app in P'. cbn [map fst] in P'.
      apply Permutation_sym, Permutation_cons_app_inv in P'. apply Hone. rewrite map_app. eapply Permutation_in; eauto.
    + apply assoc_none in An. apply An. rewrite Ks, Eab, map_app. apply in_or_app. cbn. auto.
  - apply I in Hm. unfold sm in Hm. apply in_map_iff in Hm as (m0 & <- & Hm0). cbn [snd] in Hkm.
    rewrite Forall_forall in H. eapply H; eauto.
Qed.

(* ---- Lookup ---- *)

Lemma lookup_max ns p : (lenN ns <= maxUint)%N -> lookup ns maxUint p = maxUint.
Proof. intro H. destruct p; auto. cbn. rewrite getNode_none; auto. Qed.

Lemma digit_test c : ((bN c + 208) mod 256 <=? 9)%N = isdigit c.
Proof. apply eqb_prop. revert c. apply forall_bytes. vm_compute. reflexivity. Qed.
Lemma digit_val c : isdigit c = true -> ((bN c + 208) mod 256 = bN c - 48)%N.
Proof.
  intro H. assert (K : implb (isdigit c) ((bN c + 208) mod 256 =? bN c - 48)%N = true).
  { revert c H. intros c _. revert c. apply forall_bytes. vm_compute. reflexivity. }
  rewrite H in K. apply N.eqb_eq. exact K.
Qed.

Lemma wrap64_small z : (0 <= z < 9223372036854775808)%Z -> wrap64 z = z.
Proof.
  intro H. unfold wrap64. rewrite Z.mod_small by lia. destruct (Z.ltb_spec z 9223372036854775808); lia.
Qed.

Lemma fold_ge k : forall a, (a <= fold_left (fun n c => 10 * n + (bN c - 48)) k a)%N.
Proof. induction k as [|c k IH]; intro a; cbn [fold_left]; [lia|]. specialize (IH (10 * a + (bN c - 48))%N). lia. Qed.

Lemma stepIndex_digits k : forall a, forallb isdigit k = true ->
  (fold_left (fun n c => 10 * n + (bN c - 48)) k a < 9223372036854775808)%N ->
  stepIndex k (Z.of_N a) = Some (Z.of_N (fold_left (fun n c => 10 * n + (bN c - 48)) k a))%N.
Proof.
  induction k as [|c k IH]; intros a Hd Hv; cbn [stepIndex fold_left forallb] in *; auto.
  apply andb_prop in Hd as (Hc & Hd). rewrite digit_test, Hc, (digit_val _ Hc).
  pose proof (fold_ge k (10 * a + (bN c - 48)))%N. rewrite wrap64_small by lia.
  rewrite <- IH by auto. f_equal. lia.
Qed.
Lemma stepIndex_nodigits k : forall i, forallb isdigit k = false -> stepIndex k i = None.
Proof.
  induction k as [|c k IH]; intros i; cbn [stepIndex forallb]; [discriminate|]. rewrite digit_test.
  destruct (isdigit c); auto.
Qed.

Lemma decimal_step k : k <> [] -> match decimal k with
  | Some i => (i < 9223372036854775808)%N -> stepIndex k 0 = Some (Z.of_N i)
  | None => stepIndex k 0 = None end.
Proof.
  intro H. unfold decimal. destruct k as [|c k]; [congruence|]. remember (c :: k) as s. clear Heqs H.
  destruct (forallb isdigit s) eqn:E.
  - intro Hv. apply (stepIndex_digits s 0%N); auto.
  - apply stepIndex_nodigits; auto.
Qed.

Lemma denotes_type ns id t n : denotes ns id t -> getNode ns id = Some n ->
  (info_Type (ninfo n) =? TypeObject)%N = (match t with JObj _ => true | _ => false end) /\
  (info_Type (ninfo n) =? TypeArray)%N = (match t with JArr _ => true | _ => false end).
Proof.
  intros D G. inversion D as [? m Gm Tm|? m Gm Tm|? m Gm Tm|? m Gm Tm|? m Gm Tm|? m ? Gm Tm|? m ms Gm Tm]; subst;
    assert (m = n) by congruence; subst m; rewrite Tm; split; reflexivity.
Qed.

Lemma lookup_tree ns (Fi : (lenN ns <= maxUint)%N) : forall p id t, denotes ns id t -> small_steps t p ->
  match follow t p with Some t' => denotes ns (lookup ns id p) t' | None => lookup ns id p = maxUint end.
Proof.
  induction p as [|k p IH]; intros id t D S; cbn [follow lookup]; auto.
  destruct (denotes_get _ _ _ D) as (n & G). rewrite G. destruct (denotes_type _ _ _ _ D G) as (To & Ta). rewrite To, Ta.
  destruct t; auto; cbn [small_steps] in S.
  - destruct S as (Sk & S). destruct (denotes_arr_inv _ _ _ _ D G) as (_ & _ & F). pose proof (F2_len _ _ _ F) as Le.
    pose proof (decimal_step k Sk) as Hs. destruct (decimal k) as [i|].
    + destruct S as (Si & S). rewrite (Hs Si).
      destruct (nth_error vs (N.to_nat i)) as [t'|] eqn:E.
      * pose proof (nth_error_lt _ _ _ E) as Lt. rewrite inRange_Z by lia. replace (Z.to_nat (Z.of_N i)) with (N.to_nat i) by lia.
        pose proof (F2_nth _ _ _ (N.to_nat i) F) as H. rewrite E in H.
        destruct (nth_error (nvalues n) (N.to_nat i)) as [v|]; [|contradiction]. destruct H as (_ & H). apply IH; auto.
      * apply nth_error_None in E. rewrite inRange_out by lia. auto.
    + rewrite Hs. auto.
  - destruct (denotes_obj_inv _ _ _ _ D G) as (_ & _ & F). pose proof (F2_assoc _ _ _ k F) as H.
    destruct (findKey k (nvalues n)) as [v|], (assoc k ms) as [t'|]; try contradiction; auto.
    apply IH; auto.
Qed.

Lemma Lookup_tree w n p t : tree_of w n t -> fits w -> small_steps t p ->
  match follow t p with Some t' => tree_of w (Node_Lookup w n p) t' | None => absent w (Node_Lookup w n p) end.
Proof.
  intros T Fi S. apply tree_live in T as (r & d & L & D). pose proof L as (En & Ed & Er).
  pose proof (lookup_tree (dnodes d) (Fi _ _ Ed) p (nid n) t D S) as H.
  unfold Node_Lookup. rewrite (live_Document _ _ _ _ L). cbn [getDoc]. rewrite Ed.
  destruct (follow t p) as [t'|].
  - apply tree_live. exists r, d. split; auto.
  - rewrite H. apply max_absent; auto.
Qed.

(* One step of Lookup is Get or Index. *)
Lemma Lookup_nil w n : Node_Lookup w n [] = n.
Proof. unfold Node_Lookup. cbn. destruct n; reflexivity. Qed.

Lemma Lookup_get w n nn k p : fits w -> Node_get w n = Some nn -> info_Type (ninfo nn) = TypeObject ->
  Node_Lookup w n (k :: p) = Node_Lookup w (Node_Get w n k) p.
Proof.
  intros Fi G T. pose proof G as G'. apply get_live in G' as (r & d & L & Gd). pose proof L as (En & Ed & Er).
  unfold Node_Get. rewrite G, (IsObject_of _ T).
  assert (K : forall id, Node_Document w (Node_With n id) = Some r) by (intro id; apply (live_Document w (Node_With n id) r d); exact L).
  unfold Node_Lookup at 1. rewrite (live_Document _ _ _ _ L). cbn [getDoc]. rewrite Ed. cbn [lookup]. rewrite Gd, T. cbn [N.eqb TypeObject].
  change (TypeObject =? TypeObject)%N with true. cbn iota.
  destruct (findKey k (nvalues nn)) as [v|]; unfold Node_Lookup; rewrite K; cbn [getDoc Node_With nid]; rewrite Ed; auto.
  rewrite lookup_max by (eapply Fi; eauto). reflexivity.
Qed.

Lemma Lookup_index w n nn k p : fits w -> Node_get w n = Some nn -> info_Type (ninfo nn) = TypeArray -> k <> [] ->
  match decimal k with
  | Some i => (i < 9223372036854775808)%N -> Node_Lookup w n (k :: p) = Node_Lookup w (Node_Index w n (Z.of_N i)) p
  | None => Node_Lookup w n (k :: p) = Node_With n maxUint
  end.
Proof.
  intros Fi G T Hk. pose proof G as G'. apply get_live in G' as (r & d & L & Gd). pose proof L as (En & Ed & Er).
  assert (K : forall id, Node_Document w (Node_With n id) = Some r) by (intro id; apply (live_Document w (Node_With n id) r d); exact L).
  pose proof (decimal_step k Hk) as Hs.
  assert (E0 : Node_Lookup w n (k :: p) = Node_With n (match stepIndex k 0 with
            | None => maxUint
            | Some i =>
                match inRange i (length (nvalues nn)) with
                | Some k => match nth_error (nvalues nn) k with
                            | Some v => lookup (dnodes d) (vid v) p
                            | None => maxUint
                            end
                | None => maxUint
                end
            end)).
  { unfold Node_Lookup. rewrite (live_Document _ _ _ _ L). cbn [getDoc]. rewrite Ed. cbn [lookup]. rewrite Gd, T. reflexivity. }
  destruct (decimal k) as [i|].
  - intro Hi. rewrite E0, (Hs Hi). unfold Node_Index. rewrite G, (IsArray_of _ T).
    assert (M : Node_With n maxUint = Node_Lookup w (Node_With n maxUint) p).
    { unfold Node_Lookup. rewrite K. cbn [getDoc Node_With nid]. rewrite Ed, lookup_max by (eapply Fi; eauto). reflexivity. }
    destruct (inRange _ _) as [j|]; auto. destruct (nth_error (nvalues nn) j) as [v|]; auto.
    unfold Node_Lookup. rewrite K. cbn [getDoc Node_With nid]. rewrite Ed. reflexivity.
  - rewrite E0, Hs. reflexivity.
Qed.

Lemma Lookup_scalar w n k p : (forall nn, Node_get w n = Some nn -> info_Type (ninfo nn) <> TypeObject /\ info_Type (ninfo nn) <> TypeArray) ->
  Node_Lookup w n (k :: p) = Node_With n maxUint.
Proof.
  intro H. unfold Node_Lookup. f_equal. cbn [lookup]. pose proof (Node_Document_get w n) as G.
  destruct (getDoc w (Node_Document w n)) as [d|].
  - rewrite <- G. destruct (Node_get w n) as [nn|]; auto. destruct (H nn eq_refl) as (H1 & H2).
    apply N.eqb_neq in H1. apply N.eqb_neq in H2. rewrite H1, H2. reflexivity.
  - rewrite getNode_none; auto. cbn. lia.
Qed.

(* ---- iterators ---- *)

Lemma nexts_S k i : nexts (S k) i = fst (IterV_Next (nexts k i)).
Proof. revert i. induction k as [|k IH]; intro i; [reflexivity|]. cbn [nexts] in *. rewrite <- IH. reflexivity. Qed.

(* While iterating over vs at position k. *)
Definition at_pos (i : IterV) (vs : list V) (n : Node) (k : nat) : Prop :=
  ivalues i = vs /\ inode i = n /\ iindex i = Z.of_nat k.

Lemma Next_in i vs n k v : at_pos i vs n k -> nth_error vs k = Some v ->
  snd (IterV_Next i) = true /\ at_pos (fst (IterV_Next i)) vs n (S k) /\ iV (fst (IterV_Next i)) = v.
Proof.
  intros (Ev & En & Ei) H. unfold IterV_Next. rewrite Ev, Ei, inRange_of by (eapply nth_error_lt; eauto).
  cbn. split; auto. split; [unfold at_pos; cbn; repeat split; auto; lia|]. apply nth_error_nth. auto.
Qed.
Lemma Next_out i vs : ivalues i = vs -> (iindex i < 0 \/ Z.of_nat (length vs) <= iindex i)%Z ->
  snd (IterV_Next i) = false /\ ivalues (fst (IterV_Next i)) = vs /\ iindex (fst (IterV_Next i)) = (-1)%Z /\
  inode (fst (IterV_Next i)) = inode i /\ vid (iV (fst (IterV_Next i))) = maxUint.
Proof. intros Ev H. unfold IterV_Next. rewrite Ev, inRange_out by auto. cbn. auto. Qed.

Lemma nexts_pos i vs n : at_pos i vs n 0 -> forall k, k <= length vs -> at_pos (nexts k i) vs n k.
Proof.
  intro H. induction k as [|k IH]; intro Hk; auto. rewrite nexts_S.
  destruct (nth_error vs k) as [v|] eqn:E; [|apply nth_error_None in E; lia].
  eapply Next_in; eauto. apply IH. lia.
Qed.

Lemma nexts_end i vs n : at_pos i vs n 0 -> forall k, length vs <= k ->
  snd (IterV_Next (nexts k i)) = false /\ ivalues (nexts k i) = vs /\ (iindex (nexts k i) = (-1)%Z \/ iindex (nexts k i) = Z.of_nat (length vs)) /\
  inode (nexts k i) = n.
Proof.
  intros H k Hk. assert (K : ivalues (nexts k i) = vs /\ (iindex (nexts k i) = (-1)%Z \/ iindex (nexts k i) = Z.of_nat (length vs)) /\ inode (nexts k i) = n).
  { induction Hk as [|k Hk (IH1 & IH2 & IH3)].
    - destruct (nexts_pos _ _ _ H (length vs) (Nat.le_refl _)) as (A & B & C). auto.
    - rewrite nexts_S. destruct (Next_out (nexts k i) vs IH1) as (_ & A & B & C & _); [lia|]. rewrite A, B, C. auto. }
  destruct K as (K1 & K2 & K3). destruct (Next_out (nexts k i) vs K1) as (A & _); [lia|]. auto.
Qed.

Lemma Values_iter w n nn k : Node_get w n = Some nn ->
  (forall v, nth_error (nvalues nn) k = Some v ->
     let i := nexts (S k) (Node_Values w n) in
     snd (IterV_Next (nexts k (Node_Values w n))) = true /\
     iV i = v /\ IterV_Index i = Z.of_nat k /\ IterV_Value i = Node_With n (vid v) /\ IterV_Len i = length (nvalues nn)) /\
  (length (nvalues nn) <= k -> snd (IterV_Next (nexts k (Node_Values w n))) = false).
Proof.
  intro G. assert (P : at_pos (Node_Values w n) (nvalues nn) n 0) by (unfold at_pos, Node_Values; rewrite G; cbn; auto).
  split.
  - intros v H. pose proof (nth_error_lt _ _ _ H) as L. pose proof (nexts_pos _ _ _ P k ltac:(lia)) as Pk.
    cbv zeta. rewrite nexts_S. destruct (Next_in _ _ _ _ _ Pk H) as (A & (B1 & B2 & B3) & C).
    split; auto. split; auto. unfold IterV_Index, IterV_Value, IterV_Len. rewrite B1, B2, B3, C. split; [lia|auto].
  - intro L. apply (nexts_end _ _ _ P k L).
Qed.

(* After Reset the iteration starts over. *)
Lemma Reset_iter w n nn k j : Node_get w n = Some nn ->
  let i := IterV_Reset (nexts k (Node_Values w n)) in
  (forall v, nth_error (nvalues nn) j = Some v ->
     snd (IterV_Next (nexts j i)) = true /\ iV (nexts (S j) i) = v /\ IterV_Index (nexts (S j) i) = Z.of_nat j /\
     IterV_Value (nexts (S j) i) = Node_With n (vid v)) /\
  (length (nvalues nn) <= j -> snd (IterV_Next (nexts j i)) = false).
Proof.
  intros G i. assert (P : at_pos (Node_Values w n) (nvalues nn) n 0) by (unfold at_pos, Node_Values; rewrite G; cbn; auto).
  assert (Q : at_pos i (nvalues nn) n 0).
  { unfold i, at_pos, IterV_Reset. cbn. destruct (Nat.le_gt_cases (length (nvalues nn)) k) as [H|H].
    - destruct (nexts_end _ _ _ P k H) as (_ & A & _ & B). auto.
    - destruct (nexts_pos _ _ _ P k ltac:(lia)) as (A & B & _). auto. }
  split.
  - intros v H. pose proof (nth_error_lt _ _ _ H) as L. pose proof (nexts_pos _ _ _ Q j ltac:(lia)) as Pk.
    rewrite nexts_S. destruct (Next_in _ _ _ _ _ Pk H) as (A & (B1 & B2 & B3) & C).
    split; auto. split; auto. unfold IterV_Index, IterV_Value. rewrite B2, B3, C. split; [lia|auto].
  - intro L. apply (nexts_end _ _ _ Q j L).
Qed.

Lemma Close_iter i k : snd (IterV_Next (nexts k (IterV_Close i))) = false /\ IterV_Len (IterV_Close i) = 0.
Proof.
  assert (K : forall k, ivalues (nexts k (IterV_Close i)) = [] /\ iindex (nexts k (IterV_Close i)) = (-1)%Z).
  { clear k. induction k as [|k (A & B)]; [auto|]. rewrite nexts_S. destruct (Next_out _ _ A) as (_ & C & D & _); [lia|auto]. }
  destruct (K k) as (A & B). split; auto. destruct (Next_out _ _ A) as (C & _); [lia|auto].
Qed.

(* ---- copies ---- *)

Lemma effect_agree w n vals risky w' r d : effect w n vals risky w' -> nth_error w r = Some d ->
  exists d', nth_error w' r = Some d' /\ drev d' = drev d /\
    forall y, (y < lenN (dnodes d))%N -> (ndoc n <> Some r \/ y <> nid n) -> agree (dnodes d) (dnodes d') y.
Proof.
  intros H E. destruct H as [|r0 d0 add ns1 L G|r0 d0 nn add ns1 nn1 x L Gn G G1 Mv W Hb].
  - exists d. repeat split; auto.
  - pose proof L as (En & Ed & _). destruct (Nat.eq_dec r0 r) as [->|Hr].
    + assert (d0 = d) by congruence. subst d0. exists (mkDoc ns1 (drev d)). split; [apply putNodes_same; auto|]. split; auto.
      intros y Hy _. apply ext_agree; auto. eapply grow_ext; eauto.
    + exists d. rewrite putNodes_other by auto. repeat split; auto.
  - pose proof L as (En & Ed & _). destruct (Nat.eq_dec r0 r) as [->|Hr].
    + assert (d0 = d) by congruence. subst d0. exists (mkDoc (putNode ns1 (nid n) x) (drev d)). split; [apply putNodes_same; auto|]. split; auto.
      intros y Hy [Hn|Hn]; [destruct (Hn En)|]. unfold agree. cbn [dnodes]. rewrite getNode_put_other by auto.
      apply ext_agree; auto. eapply grow_ext; eauto.
    + exists d. rewrite putNodes_other by auto. repeat split; auto.
Qed.

Lemma appended_agree c w w' r d : appended c w w' -> c <> CReset r -> nth_error w r = Some d ->
  exists d', nth_error w' r = Some d' /\ drev d' = drev d /\ forall y, (y < lenN (dnodes d))%N -> agree (dnodes d) (dnodes d') y.
Proof.
  intros H Hc E. inversion H as [E'|E'|r' d' Ec Ed E'|r' d' new Ed F D W E']; subst.
  - exists d. repeat split; auto.
  - exists d. rewrite nth_error_app1 by (eapply nth_error_lt; eauto). repeat split; auto.
  - exists d. unfold putDoc. rewrite nth_error_replaceNth_other by congruence. repeat split; auto.
  - destruct (Nat.eq_dec r' r) as [->|Hr].
    + assert (d' = d) by congruence. subst d'. exists (mkDoc (dnodes d ++ new) (drev d)). split; [apply putNodes_same; auto|]. split; auto.
      intros y Hy. unfold agree. cbn [dnodes]. rewrite getNode_app1; auto.
    + exists d. rewrite putNodes_other by auto. repeat split; auto.
Qed.

Lemma fresh_step w r L x t c w' : fresh_tree w r L x t -> elsewhere r L x w c -> step w c = Ok w' -> fresh_tree w' r L x t.
Proof.
  intros (d & Ex & Ed & Er & D & Fr) El H.
  assert (K : forall d', nth_error w' r = Some d' -> drev d' = drev d ->
     (forall y, reach (dnodes d) (nid x) y -> agree (dnodes d) (dnodes d') y) -> fresh_tree w' r L x t).
  { intros d' Ed' Er' Ag. exists d'. split; auto. split; auto. split; [congruence|]. split; [eapply frame; eauto|].
    intros y Hy. apply Fr. eapply agree_reach; eauto. }
  destruct (receiver c) as [s|] eqn:Rc.
  - destruct (is_strip c) as [(m & k & ->)|Hs].
    + cbn in Rc. injection Rc as <-. cbn [elsewhere] in El. apply strip_step in H as [->|(r' & d' & nn & ns' & Lv & G & E & ->)].
      * exists d. auto.
      * pose proof Lv as (En & Ed' & _). destruct (Nat.eq_dec r' r) as [->|Hr].
        -- assert (d' = d) by congruence. subst d'. eapply K; [apply putNodes_same; eauto|auto|].
           intros y Hy. unfold agree. cbn [dnodes]. f_equal. eapply strip_outside; eauto using shrunk_refl. intro Hm. apply El. exists r, d, y. auto 10.
        -- apply (K d); auto. rewrite putNodes_other; auto. intros y _. reflexivity.
    + pose proof (step_effect _ _ _ _ Rc Hs H) as Ef.
      assert (El' : ndoc s <> Some r \/ (nid s < L)%N).
      { clear - El Rc Hs. destruct c; cbn in Rc; try discriminate; injection Rc as ->; cbn in El; auto. exfalso. eapply Hs; eauto. }
      destruct (effect_agree _ _ _ _ _ _ _ Ef Ed) as (d' & Ed' & Er' & Ag). eapply K; eauto.
      intros y Hy. apply Ag; [eapply reach_lt; eauto|]. destruct El'; auto. right. specialize (Fr _ Hy). lia.
  - pose proof (step_appended _ _ _ Rc H) as Ap.
    assert (Hc : c <> CReset r) by (destruct c; try discriminate; exact El).
    destruct (appended_agree _ _ _ _ _ Ap Hc Ed) as (d' & Ed' & Er' & Ag). eapply K; eauto.
    intros y Hy. apply Ag. eapply reach_lt; eauto.
Qed.

Lemma fresh_later w w' r L x t : fresh_tree w r L x t -> later (elsewhere r L x) w w' -> tree_of w' x t.
Proof.
  intros F H. revert F. induction H as [w|w c w1 w2 Ok1 S H IH]; intro F.
  - destruct F as (d & Ex & Ed & Er & D & _). exists r, d. auto.
  - apply IH. eapply fresh_step; eauto.
Qed.

(* The stored copy. *)
Lemma stored_fresh w n r d ns' x t : ndoc n = Some r -> nth_error w r = Some d -> drev d = nrev n -> ext (dnodes d) ns' ->
  denotes ns' (lenN (dnodes d)) t -> ~ reach ns' (lenN (dnodes d)) (nid n) ->
  fresh_tree (putNodes w r (putNode ns' (nid n) x)) r (lenN (dnodes d)) (Node_With n (lenN (dnodes d))) t.
Proof.
  intros En Ed Er X D NR. exists (mkDoc (putNode ns' (nid n) x) (drev d)). split; auto. split; [apply putNodes_same; auto|]. split; auto.
  cbn [dnodes nid Node_With]. split; [apply put_frame; auto|].
  intros y Hy. eapply ext_fresh; eauto; [apply N.le_refl|]. eapply agree_reach; [exact Hy|].
  intros z Hz. unfold agree. rewrite getNode_put_other; auto. intros <-. auto.
Qed.

Lemma Set_copy w n k v ms t r d : tree_of w n (JObj ms) -> tree_of w v t -> ndoc n = Some r -> nth_error w r = Some d ->
  ~ adopts w r (nid n) v ->
  exists w', Node_Set w n k v = Ok w' /\ (fits w' -> 
    Node_Get w' n k = Node_With n (lenN (dnodes d)) /\ fresh_tree w' r (lenN (dnodes d)) (Node_Get w' n k) t).
Proof.
  intros T Tv En Ed NA. apply tree_live in T as (r' & d' & L & D). pose proof L as (En' & Ed' & Er).
  assert (r' = r) by congruence. subst r'. assert (d' = d) by congruence. subst d'.
  destruct (denotes_get _ _ _ D) as (nn & G). destruct (denotes_obj_inv _ _ _ _ D G) as (Ty & Rw & F).
  destruct (stored_tree _ _ _ _ _ _ L (getNode_lt _ _ _ G) Tv) as (ns' & id & Ec & X & Did & NR & Hid); [tauto|].
  destruct Hid as [(A & _)|(_ & ->)]; [contradiction|].
  unfold Node_Set. rewrite (live_get _ _ _ _ L), G, En, (IsObject_of _ Ty), Ec. cbn [bind].
  destruct (N.ltb_spec (lenN (dnodes d)) maxUint) as [Lt|Ge].
  2: { eexists. split; [reflexivity|]. intro Fi. pose proof (fits_len _ _ _ _ Fi Ed). pose proof (denotes_lt _ _ _ Did). lia. }
  pose proof (live_putNodes _ _ _ _ ns' L) as L'. rewrite (live_get _ _ _ _ L'). cbn [dnodes].
  destruct (ext_getNode _ _ _ _ X G) as (n1 & G1 & _). rewrite G1.
  pose proof (ext_values _ _ _ _ _ X G G1) as (_ & Ev & Et & Ew).
  eexists. split; [reflexivity|]. intros _. rewrite (live_put _ _ _ _ _ L'), putNodes_twice. cbn [dnodes].
  set (ns2 := putNode ns' (nid n) (withValues n1 (assignKey k (lenN (dnodes d)) (nvalues n1)))).
  pose proof (live_putNodes _ _ _ _ ns2 L) as L2.
  assert (Eg : Node_Get (putNodes w r ns2) n k = Node_With n (lenN (dnodes d))).
  { unfold Node_Get. rewrite (live_get _ _ _ _ L2). cbn [dnodes]. unfold ns2 at 1. rewrite getNode_put_same by (eapply getNode_lt; eauto).
    cbn [ninfo withValues nvalues]. rewrite IsObject_of by congruence.
    replace (findKey k (assignKey k (lenN (dnodes d)) (nvalues n1))) with (Some (mkV (lenN (dnodes d)) k)); auto.
    generalize (nvalues n1) as vs. intro vs. induction vs as [|u vs IH]; cbn.
    - rewrite bseqb_refl. auto.
    - destruct (bseqb (vkey u) k) eqn:E; cbn.
      + apply bseqb_true in E. rewrite E, bseqb_refl. reflexivity.
      + replace (bseqb k (vkey u)) with false; auto. symmetry. apply bseqb_false. intros ->. rewrite bseqb_refl in E. discriminate. }
  split; auto. rewrite Eg. apply stored_fresh with (d := d); auto.
Qed.

Lemma Append_copy w n v ts t r d : tree_of w n (JArr ts) -> tree_of w v t -> ndoc n = Some r -> nth_error w r = Some d ->
  ~ adopts w r (nid n) v ->
  exists w', Node_Append w n [v] = Ok w' /\
    Node_Index w' n (Z.of_nat (length ts)) = Node_With n (lenN (dnodes d)) /\
    fresh_tree w' r (lenN (dnodes d)) (Node_Index w' n (Z.of_nat (length ts))) t.
Proof.
  intros T Tv En Ed NA. apply tree_live in T as (r' & d' & L & D). pose proof L as (En' & Ed' & Er).
  assert (r' = r) by congruence. subst r'. assert (d' = d) by congruence. subst d'.
  destruct (denotes_get _ _ _ D) as (nn & G). destruct (denotes_arr_inv _ _ _ _ D G) as (Ty & Rw & F).
  destruct (stored_tree _ _ _ _ _ _ L (getNode_lt _ _ _ G) Tv) as (ns' & id & Ec & X & Did & NR & Hid); [tauto|].
  destruct Hid as [(A & _)|(_ & ->)]; [contradiction|].
  unfold Node_Append. rewrite (live_get _ _ _ _ L), G, En, (IsArray_of _ Ty). cbn [appendIds]. rewrite Ec. cbn [bind].
  pose proof (live_putNodes _ _ _ _ ns' L) as L'. rewrite (live_get _ _ _ _ L'). cbn [dnodes].
  destruct (ext_getNode _ _ _ _ X G) as (n1 & G1 & _). rewrite G1.
  pose proof (ext_values _ _ _ _ _ X G G1) as (_ & Ev & Et & Ew).
  eexists. split; [reflexivity|]. rewrite (live_put _ _ _ _ _ L'), putNodes_twice. cbn [dnodes].
  match goal with |- context [putNodes w r ?x] => set (ns2 := x) end.
  pose proof (live_putNodes _ _ _ _ ns2 L) as L2.
  assert (Eg : Node_Index (putNodes w r ns2) n (Z.of_nat (length ts)) = Node_With n (lenN (dnodes d))).
  { unfold Node_Index. rewrite (live_get _ _ _ _ L2). cbn [dnodes]. unfold ns2 at 1. rewrite getNode_put_same by (eapply getNode_lt; eauto).
    cbn [ninfo withValues nvalues]. rewrite IsArray_of by congruence. rewrite <- (F2_len _ _ _ F).
    rewrite inRange_of by (rewrite app_length; cbn; lia). rewrite nth_mid. reflexivity. }
  split; auto. rewrite Eg. apply stored_fresh with (d := d); auto.
Qed.

Lemma Replace_copy w n i v ts t r d : tree_of w n (JArr ts) -> tree_of w v t -> ndoc n = Some r -> nth_error w r = Some d ->
  (0 <= i < Z.of_nat (length ts))%Z -> ~ adopts w r (nid n) v ->
  exists w', Node_Replace w n i v = Ok w' /\ (fits w' ->
    Node_Index w' n i = Node_With n (lenN (dnodes d)) /\ fresh_tree w' r (lenN (dnodes d)) (Node_Index w' n i) t).
Proof.
  intros T Tv En Ed Hi NA. apply tree_live in T as (r' & d' & L & D). pose proof L as (En' & Ed' & Er).
  assert (r' = r) by congruence. subst r'. assert (d' = d) by congruence. subst d'.
  destruct (denotes_get _ _ _ D) as (nn & G). destruct (denotes_arr_inv _ _ _ _ D G) as (Ty & Rw & F). pose proof (F2_len _ _ _ F) as Le.
  destruct (stored_tree _ _ _ _ _ _ L (getNode_lt _ _ _ G) Tv) as (ns' & id & Ec & X & Did & NR & Hid); [tauto|].
  destruct Hid as [(A & _)|(_ & ->)]; [contradiction|].
  unfold Node_Replace. rewrite (live_get _ _ _ _ L), G, En, (IsArray_of _ Ty), Ec. rewrite inRange_Z by lia. cbn [bind].
  destruct (N.ltb_spec (lenN (dnodes d)) maxUint) as [Lt|Ge].
  2: { eexists. split; [reflexivity|]. intro Fi. pose proof (fits_len _ _ _ _ Fi Ed). pose proof (denotes_lt _ _ _ Did). lia. }
  pose proof (live_putNodes _ _ _ _ ns' L) as L'. rewrite (live_get _ _ _ _ L'). cbn [dnodes].
  destruct (ext_getNode _ _ _ _ X G) as (n1 & G1 & _). rewrite G1.
  pose proof (ext_values _ _ _ _ _ X G G1) as (_ & Ev & Et & Ew). rewrite Ev.
  replace (Z.to_nat i <? length (nvalues nn)) with true by (symmetry; apply Nat.ltb_lt; lia).
  eexists. split; [reflexivity|]. intros _. rewrite (live_put _ _ _ _ _ L'), putNodes_twice. cbn [dnodes].
  match goal with |- context [putNodes w r ?x] => set (ns2 := x) end.
  pose proof (live_putNodes _ _ _ _ ns2 L) as L2.
  assert (Eg : Node_Index (putNodes w r ns2) n i = Node_With n (lenN (dnodes d))).
  { unfold Node_Index. rewrite (live_get _ _ _ _ L2). cbn [dnodes]. unfold ns2 at 1. rewrite getNode_put_same by (eapply getNode_lt; eauto).
    cbn [ninfo withValues nvalues]. rewrite IsArray_of by congruence. rewrite inRange_Z by (rewrite replaceNth_length; lia).
    rewrite nth_error_replaceNth_same by lia. reflexivity. }
  split; auto. rewrite Eg. apply stored_fresh with (d := d); auto.
Qed.
