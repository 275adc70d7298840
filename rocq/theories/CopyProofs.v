(* Copying and adopting values; extending documents by fresh nodes. *)
From Verif Require Import Bytes Tables Types JsonSpec Parser LexProofs ParserProofs Doc DocSpec DocProofs ParserThms.
From Coq Require Import Permutation.

Lemma lenN_map {A B} (f : A -> B) l : lenN (map f l) = lenN l.
Proof. unfold lenN. rewrite map_length. reflexivity. Qed.

(* ---- fresh nodes ---- *)

(* All references in the nodes l lie in [lo, hi). *)
Definition refsin (lo hi : N) (l : list node) : Prop :=
  forall n v, In n l -> In v (nvalues n) -> (lo <= vid v < hi)%N.

Lemma refsin_app lo hi a b : refsin lo hi a -> refsin lo hi b -> refsin lo hi (a ++ b).
Proof. intros H1 H2 n v Hn. apply in_app_or in Hn as [Hn|Hn]; eauto. Qed.
Lemma refsin_mono lo hi lo' hi' l : (lo' <= lo)%N -> (hi <= hi')%N -> refsin lo hi l -> refsin lo' hi' l.
Proof. intros A B H n v Hn Hv. specialize (H n v Hn Hv). lia. Qed.
Lemma refsin_unflag lo hi l l' : map unflag l = map unflag l' -> refsin lo hi l -> refsin lo hi l'.
Proof.
  intros E H n v Hn Hv. apply (in_map unflag) in Hn. rewrite <- E in Hn.
  apply in_map_iff in Hn as (m & Em & Hm). apply (H m); auto.
  injection Em; intros. congruence.
Qed.

(* ---- reachability under agreement ---- *)

Lemma agree_reach ns ns' a b :
  reach ns' a b -> (forall x, reach ns a x -> agree ns ns' x) -> reach ns a b.
Proof.
  induction 1 as [a|a n v b E Hv R IH]; intro H; [constructor|].
  pose proof (H a (reach_refl _ _)) as Ha. unfold agree in Ha. rewrite E in Ha.
  destruct (getNode ns a) as [m|] eqn:Em; [|discriminate]. injection Ha as _ _ Ev.
  rewrite Ev in Hv. econstructor; eauto. apply IH. intros x Hx. apply H. econstructor; eauto.
Qed.

Lemma agree_sym ns ns' x : agree ns ns' x -> agree ns' ns x.
Proof. unfold agree; auto. Qed.

Lemma reach_trans ns a b c : reach ns a b -> reach ns b c -> reach ns a c.
Proof. induction 1; auto. intro. econstructor; eauto. Qed.

(* ns' is ns (up to flags) followed by fresh nodes that only refer to fresh nodes. *)
Definition ext (ns ns' : list node) : Prop :=
  exists new, map unflag ns' = map unflag (ns ++ new) /\ refsin (lenN ns) (lenN ns') new.

Lemma map_unflag_len l l' : map unflag l = map unflag l' -> lenN l = lenN l'.
Proof. intro H. apply (f_equal (@length node)) in H. rewrite !map_length in H. unfold lenN. congruence. Qed.

Lemma ext_len ns ns' : ext ns ns' -> (lenN ns <= lenN ns')%N.
Proof. intros (new & E & _). apply map_unflag_len in E. rewrite E, lenN_app. lia. Qed.

Lemma ext_agree ns ns' x : ext ns ns' -> (x < lenN ns)%N -> agree ns ns' x.
Proof.
  intros (new & E & _) Hx. unfold agree. rewrite <- !getNode_map, E, map_app.
  rewrite getNode_app1; auto. unfold lenN. rewrite map_length. exact Hx.
Qed.

Lemma ext_refl ns : ext ns ns.
Proof. exists []. rewrite app_nil_r. split; auto. intros n v []. Qed.

Lemma ext_trans a b c : ext a b -> ext b c -> ext a c.
Proof.
  intros H1 H2. pose proof (ext_len _ _ H1). pose proof (ext_len _ _ H2).
  destruct H1 as (n1 & E1 & R1), H2 as (n2 & E2 & R2).
  exists (n1 ++ n2). split.
  - rewrite E2, map_app, E1. rewrite app_assoc, !map_app. reflexivity.
  - apply refsin_app.
    + eapply refsin_mono; [| |exact R1]; lia.
    + eapply refsin_mono; [| |exact R2]; lia.
Qed.

Lemma ext_app ns new : refsin (lenN ns) (lenN ns + lenN new) new -> ext ns (ns ++ new).
Proof. intro H. exists new. split; auto. rewrite lenN_app. auto. Qed.

Lemma ext_unflag ns ns' : map unflag ns' = map unflag ns -> ext ns ns'.
Proof. intro H. exists []. rewrite app_nil_r. split; auto. intros n v []. Qed.

Lemma ext_denotes ns ns' id t : ext ns ns' -> denotes ns id t -> denotes ns' id t.
Proof. intros H D. eapply frame; eauto. intros x Hx. eapply ext_agree; eauto. eapply reach_lt; eauto. Qed.

Lemma ext_denotes_back ns ns' id t t' : ext ns ns' -> denotes ns id t -> denotes ns' id t' -> t' = t.
Proof. intros H D D'. eapply ext_denotes in D; eauto. eapply denotes_det; eauto. Qed.

Lemma ext_reach ns ns' a b t : ext ns ns' -> denotes ns a t -> reach ns' a b -> reach ns a b.
Proof.
  intros H D R. eapply agree_reach; eauto. intros x Hx. eapply ext_agree; eauto. eapply reach_lt; eauto.
Qed.

Lemma ext_reach_fwd ns ns' a b t : ext ns ns' -> denotes ns a t -> reach ns a b -> reach ns' a b.
Proof.
  intros H D R. apply agree_reach with (ns' := ns); auto.
  intros x Hx. apply agree_sym. eapply ext_agree; eauto. eapply reach_lt; eauto. eapply ext_reach; eauto.
Qed.

(* Nothing fresh reaches anything old. *)
Lemma ext_fresh ns ns' a b : ext ns ns' -> (lenN ns <= a)%N -> reach ns' a b -> (lenN ns <= b)%N.
Proof.
  intros (new & E & R) Ha H. revert Ha. induction H as [|a n v b En Hv H IH]; auto. intro Ha. apply IH.
  assert (In (unflag n) (map unflag new)) as Hin.
  { pose proof (getNode_map unflag ns' a) as G. rewrite En, E, map_app in G. simpl in G.
    rewrite getNode_app2 in G by (unfold lenN; rewrite map_length; exact Ha).
    eapply getNode_in; eauto. }
  apply in_map_iff in Hin as (m & Em & Hm). injection Em as _ _ Ev. rewrite <- Ev in Hv.
  destruct (R m v Hm Hv); auto.
Qed.

Lemma ext_getNode ns ns' id n : ext ns ns' -> getNode ns id = Some n ->
  exists n', getNode ns' id = Some n' /\ unflag n' = unflag n.
Proof.
  intros H E. pose proof (ext_agree _ _ _ H (getNode_lt _ _ _ E)) as A. unfold agree in A. rewrite E in A.
  destruct (getNode ns' id) as [n'|]; [|discriminate]. exists n'. split; auto. injection A; intros.
  unfold unflag. congruence.
Qed.

Lemma setValues_at ns n rest vs : setValues (ns ++ n :: rest) (N.to_nat (lenN ns)) vs = ns ++ mkNode (ninfo n) (nraw n) vs :: rest.
Proof. unfold lenN. rewrite Nat2N.id. apply setValues_app. Qed.

(* ---- ncopy on arbitrary (possibly broken) nodes ---- *)

(* A block of nodes starting at b whose references all point forward inside the block. *)
Definition forward (b : N) (new : list node) : Prop :=
  forall i n v, nth_error new i = Some n -> In v (nvalues n) -> (b + N.of_nat i < vid v < b + lenN new)%N.

Lemma forward_refsin b new : forward b new -> refsin (b + 1) (b + lenN new) new.
Proof. intros H n v Hn Hv. apply In_nth_error in Hn as (i & Hi). specialize (H i n v Hi Hv). lia. Qed.

Lemma forward_app b x y : forward b x -> forward (b + lenN x) y -> forward b (x ++ y).
Proof.
  intros Hx Hy i n v Hi Hv. destruct (Nat.lt_ge_cases i (length x)) as [L|L].
  - rewrite nth_error_app1 in Hi by auto. specialize (Hx i n v Hi Hv). nsimpl. lia.
  - rewrite nth_error_app2 in Hi by auto. specialize (Hy _ n v Hi Hv). nsimpl. unfold lenN in *. lia.
Qed.

Lemma refs_app a b : refs (a ++ b) = refs a ++ refs b.
Proof. apply flat_map_app. Qed.

Lemma in_refs ns x : In x (refs ns) <-> exists n v, In n ns /\ In v (nvalues n) /\ vid v = x.
Proof.
  unfold refs. rewrite in_flat_map. split.
  - intros (n & Hn & Hx). apply in_map_iff in Hx as (v & <- & Hv). eauto.
  - intros (n & v & Hn & Hv & <-). exists n. split; auto. apply in_map; auto.
Qed.

Lemma refsin_refs lo hi l x : refsin lo hi l -> In x (refs l) -> (lo <= x < hi)%N.
Proof. intros H Hx. apply in_refs in Hx as (n & v & Hn & Hv & <-). eauto. Qed.

Lemma NoDup_app {A} (a b : list A) : NoDup a -> NoDup b -> (forall x, In x a -> ~ In x b) -> NoDup (a ++ b).
Proof.
  induction 1 as [|x a Hx Ha IH]; intros Hb D; simpl; auto. constructor.
  - intro H. apply in_app_or in H as [H|H]; auto. apply (D x); simpl; auto.
  - apply IH; auto. intros y Hy. apply D. simpl; auto.
Qed.

Definition ncopy_fresh_at (f : nat) : Prop :=
  forall other ns n ns' id, ncopy f other ns n = Some (ns', id) ->
  id = lenN ns /\ exists new, ns' = ns ++ new /\ new <> [] /\ forward (lenN ns) new /\ NoDup (refs new).

Lemma copyValues_fresh f : ncopy_fresh_at f ->
  forall other vs ns acc ns' acc', copyValues (ncopy f other) other vs ns acc = Some (ns', acc') ->
  exists new add, ns' = ns ++ new /\ acc' = acc ++ add /\ forward (lenN ns) new /\
    NoDup (map vid add ++ refs new) /\ (forall v, In v add -> (lenN ns <= vid v < lenN ns')%N).
Proof.
  intros IH other vs. induction vs as [|v vs IHvs]; intros ns acc ns' acc'; simpl.
  - injection 1 as <- <-. exists [], []. rewrite !app_nil_r. split; auto. split; auto.
    split; [intros [|i] ? ? E; discriminate E|]. split; [constructor|contradiction].
  - destruct (getNode _ (vid v)) as [c|].
    2:{ intro H. apply IHvs in H. exact H. }
    destruct (ncopy f other ns c) as [[ns1 cid]|] eqn:E; [|discriminate].
    apply IH in E as (-> & new1 & -> & Hne & R1 & D1). intro H.
    apply IHvs in H as (new2 & add2 & -> & -> & R2 & D2 & A2).
    exists (new1 ++ new2), (mkV (lenN ns) (vkey v) :: add2).
    split; [now rewrite <- app_assoc|]. split; [now rewrite <- app_assoc|].
    rewrite lenN_app in R2.
    split; [apply forward_app; auto|].
    assert (L1 : (0 < lenN new1)%N) by (destruct new1; [congruence|nsimpl; lia]).
    pose proof (forward_refsin _ _ R1) as F1. pose proof (forward_refsin _ _ R2) as F2.
    assert (F3 : forall x, In x (map vid add2 ++ refs new2) -> (lenN ns + lenN new1 <= x)%N).
    { intros x Hx. apply in_app_or in Hx as [Hx|Hx].
      - apply in_map_iff in Hx as (u & <- & Hu). apply A2 in Hu. nsimpl. lia.
      - apply (refsin_refs _ _ _ _ F2) in Hx. lia. }
    split.
    + cbn [map vid app]. rewrite refs_app. constructor.
      * intro Hx. rewrite !in_app_iff in Hx. destruct Hx as [Hx|[Hx|Hx]].
        -- specialize (F3 (lenN ns)). rewrite in_app_iff in F3. specialize (F3 (or_introl Hx)). lia.
        -- apply (refsin_refs _ _ _ _ F1) in Hx. lia.
        -- specialize (F3 (lenN ns)). rewrite in_app_iff in F3. specialize (F3 (or_intror Hx)). lia.
      * apply Permutation_NoDup with (refs new1 ++ map vid add2 ++ refs new2).
        { rewrite !app_assoc. apply Permutation_app_tail. apply Permutation_app_comm. }
        apply NoDup_app; auto. intros x Hx Hx2. apply F3 in Hx2. apply (refsin_refs _ _ _ _ F1) in Hx. lia.
    + intros u [<-|H]; cbn [vid].
      * nsimpl. lia.
      * apply A2 in H. nsimpl. lia.
Qed.

Lemma ncopy_fresh : forall f, ncopy_fresh_at f.
Proof.
  induction f as [|f IH]; intros other ns n ns' id; [discriminate|].
  cbn [ncopy]. destruct (copyValues _ _ _ _ _) as [[ns1 vs]|] eqn:E; [|discriminate].
  injection 1 as <- <-. split; auto.
  apply (copyValues_fresh _ IH) in E as (new & add & -> & -> & R & D & A).
  exists (mkNode (ninfo n) (nraw n) add :: new).
  rewrite <- app_assoc. cbn [app]. rewrite setValues_at. cbn [ninfo nraw].
  split; auto. split; [discriminate|]. split; [|exact D].
  intros [|i] m v Hi Hv; simpl in Hi.
  - injection Hi as <-. apply A in Hv. nsimpl. lia.
  - specialize (R i m v Hi Hv). nsimpl. lia.
Qed.

(* ---- ncopy on trees ---- *)

Definition srcOK (other : option (list node)) (base ns : list node) : Prop :=
  match other with Some o => o = base | None => exists x, ns = base ++ x end.

Lemma srcOK_get other base ns id n : srcOK other base ns -> getNode base id = Some n ->
  getNode (match other with Some o => o | None => ns end) id = Some n.
Proof.
  destruct other as [o|]; simpl.
  - intros ->. auto.
  - intros (x & ->) H. rewrite getNode_app1; auto. eapply getNode_lt; eauto.
Qed.

Lemma srcOK_app other base ns x : srcOK other base ns -> srcOK other base (ns ++ x).
Proof. destruct other; simpl; auto. intros (y & ->). exists (y ++ x). apply eq_sym, app_assoc. Qed.

Definition copies (f : nat) (other : option (list node)) (base : list node) (t : jval) : Prop :=
  forall id n ns, denotes base id t -> getNode base id = Some n -> srcOK other base ns ->
  jdepth t <= f ->
  exists new, ncopy f other ns n = Some (ns ++ new, lenN ns) /\ map unflag new = layout (lenN ns) t.

Lemma copyValues_list f other base ts :
  Forall (copies f other base) ts -> forall vs, denotes_list base vs ts ->
  Forall (fun t => jdepth t <= f) ts -> forall ns acc, srcOK other base ns ->
  exists new, copyValues (ncopy f other) other vs ns acc = Some (ns ++ new, acc ++ arrVs (lenN ns) ts) /\
    map unflag new = layouts (lenN ns) ts.
Proof.
  induction 1 as [|t ts Ht Hts IH]; intros vs Hl Hd ns acc Hs; inversion Hl as [|v l t0 ts0 Hk Hv Hl']; subst.
  - exists []. simpl. rewrite !app_nil_r. auto.
  - apply Forall_cons_iff in Hd as [Hd0 Hd].
    destruct (getNode_some base (vid v)) as (c & Ec); [eapply denotes_lt; eauto|].
    cbn [copyValues]. rewrite (srcOK_get _ _ _ _ _ Hs Ec).
    destruct (Ht (vid v) c ns Hv Ec Hs Hd0) as (new1 & -> & E1).
    destruct (IH l Hl' Hd (ns ++ new1) (acc ++ [mkV (lenN ns) (vkey v)]) (srcOK_app _ _ _ _ Hs)) as (new2 & -> & E2).
    assert (L : lenN new1 = N.of_nat (jsize t)).
    { rewrite <- (lenN_layout (lenN ns)), <- E1. symmetry. apply lenN_map. }
    exists (new1 ++ new2). split.
    + rewrite <- !app_assoc. cbn [arrVs app]. rewrite Hk, lenN_app, L. reflexivity.
    + rewrite map_app, E1, E2. cbn [layouts]. rewrite lenN_app, L. reflexivity.
Qed.

Lemma copyValues_members f other base ms :
  Forall (fun m => copies f other base (snd m)) ms -> forall vs, denotes_members base vs ms ->
  Forall (fun m => jdepth (snd m) <= f) ms -> forall ns acc, srcOK other base ns ->
  exists new, copyValues (ncopy f other) other vs ns acc = Some (ns ++ new, acc ++ objVs (lenN ns) ms) /\
    map unflag new = layoutm (lenN ns) ms.
Proof.
  induction 1 as [|t ts Ht Hts IH]; intros vs Hl Hd ns acc Hs; inversion Hl as [|v l t0 ts0 Hv Hl']; subst.
  - exists []. simpl. rewrite !app_nil_r. auto.
  - apply Forall_cons_iff in Hd as [Hd0 Hd]. cbn [snd] in *.
    destruct (getNode_some base (vid v)) as (c & Ec); [eapply denotes_lt; eauto|].
    cbn [copyValues]. rewrite (srcOK_get _ _ _ _ _ Hs Ec).
    destruct (Ht (vid v) c ns Hv Ec Hs Hd0) as (new1 & -> & E1).
    destruct (IH l Hl' Hd (ns ++ new1) (acc ++ [mkV (lenN ns) (vkey v)]) (srcOK_app _ _ _ _ Hs)) as (new2 & -> & E2).
    assert (L : lenN new1 = N.of_nat (jsize t0)).
    { rewrite <- (lenN_layout (lenN ns)), <- E1. symmetry. apply lenN_map. }
    exists (new1 ++ new2). split.
    + rewrite <- !app_assoc. cbn [objVs app]. rewrite lenN_app, L. reflexivity.
    + rewrite map_app, E1, E2. cbn [layoutm snd]. rewrite lenN_app, L. reflexivity.
Qed.

Lemma ncopy_spec : forall t f other base, copies f other base t.
Proof.
  induction t using jval_ind'; intros f other base id n ns Hd En Hs Hf;
    (destruct f as [|f]; [exfalso; simpl in Hf; lia|]).
  1-5: inversion Hd as [? m Em Tm Vm|? m Em Tm Vm|? m Em Tm Vm Rm|? m Em Tm Vm Rm|? m Em Tm Vm Rm| |]; subst;
      rewrite En in Em; injection Em as <-; cbn [ncopy]; rewrite Vm; cbn [copyValues];
      rewrite setValues_at; cbn [ninfo nraw];
      eexists; split; [reflexivity|]; cbn; unfold unflag; cbn; rewrite Tm, ?Rm; reflexivity.
  - inversion Hd as [| | | | |? m vs0 Em Tm Rm Hl|]; subst. rewrite En in Em; injection Em as <-.
    cbn [ncopy]. simpl in Hf.
    assert (Hdep : Forall (fun t => jdepth t <= f) vs).
    { apply (proj1 (Forall_map jdepth (fun d => d <= f) vs)). apply list_max_le. lia. }
    destruct (copyValues_list f other base vs) with (vs := nvalues n)
      (ns := ns ++ [mkNode (ninfo n) (nraw n) []]) (acc := @nil V) as (new & -> & E); auto.
    { eapply Forall_impl; [|exact H]. intros t0 Ht0. apply Ht0. }
    { apply srcOK_app; auto. }
    rewrite <- app_assoc. cbn [app]. rewrite setValues_at. cbn [ninfo nraw].
    eexists. split; [reflexivity|]. cbn [map]. rewrite layout_arr, E.
    unfold unflag. cbn. rewrite Tm, Rm. nsimpl. f_equal.
  - inversion Hd as [| | | | | |? m vs0 Em Tm Rm Hl]; subst. rewrite En in Em; injection Em as <-.
    cbn [ncopy]. simpl in Hf.
    assert (Hdep : Forall (fun m => jdepth (snd m) <= f) ms).
    { apply (proj1 (Forall_map (fun m => jdepth (snd m)) (fun d => d <= f) ms)). apply list_max_le. lia. }
    destruct (copyValues_members f other base ms) with (vs := nvalues n)
      (ns := ns ++ [mkNode (ninfo n) (nraw n) []]) (acc := @nil V) as (new & -> & E); auto.
    { eapply Forall_impl; [|exact H]. intros t0 Ht0. apply Ht0. }
    { apply srcOK_app; auto. }
    rewrite <- app_assoc. cbn [app]. rewrite setValues_at. cbn [ninfo nraw].
    eexists. split; [reflexivity|]. cbn [map]. rewrite layout_obj, E.
    unfold unflag. cbn. rewrite Tm, Rm. nsimpl. f_equal.
Qed.

(* ---- copyOrAdopt ---- *)

Lemma putNodes_same w r ns d : nth_error w r = Some d -> nth_error (putNodes w r ns) r = Some (mkDoc ns (drev d)).
Proof. intro H. unfold putNodes. rewrite H. apply nth_error_replaceNth_same. eapply nth_error_lt; eauto. Qed.
Lemma putNodes_other w r r' ns : r <> r' -> nth_error (putNodes w r ns) r' = nth_error w r'.
Proof. intro H. unfold putNodes. destruct (nth_error w r); auto. apply nth_error_replaceNth_other; auto. Qed.
Lemma putNodes_length w r ns : length (putNodes w r ns) = length w.
Proof. unfold putNodes. destruct (nth_error w r); auto. apply replaceNth_length. Qed.
Lemma replaceNth_twice {A} (l : list A) i x y : replaceNth (replaceNth l i x) i y = replaceNth l i y.
Proof. revert i; induction l; intros [|i]; simpl; auto. f_equal; auto. Qed.
Lemma putNodes_twice w r a b : putNodes (putNodes w r a) r b = putNodes w r b.
Proof.
  unfold putNodes at 1. destruct (nth_error w r) as [d|] eqn:E.
  - erewrite putNodes_same by eauto. unfold putNodes. rewrite E. simpl. apply replaceNth_twice.
  - unfold putNodes. rewrite E, E. reflexivity.
Qed.
Lemma putNodes_self w r d : nth_error w r = Some d -> putNodes w r (dnodes d) = w.
Proof. intro H. unfold putNodes. rewrite H. apply replaceNth_self. destruct d; auto. Qed.

Lemma map_replaceNth {A B} (f : A -> B) l i x : map f (replaceNth l i x) = replaceNth (map f l) i (f x).
Proof. revert i; induction l; intros [|i]; simpl; auto. f_equal; auto. Qed.

Lemma map_unflag_put ns id n n' : getNode ns id = Some n -> unflag n' = unflag n ->
  map unflag (putNode ns id n') = map unflag ns.
Proof.
  intros E H. unfold putNode. rewrite map_replaceNth. apply replaceNth_self.
  pose proof (getNode_lt _ _ _ E) as L. rewrite getNode_nth in E by auto.
  rewrite nth_error_map, E. simpl. congruence.
Qed.

Lemma info_Type_unroot i : info_Type (N.ldiff i infRoot) = info_Type i.
Proof.
  unfold info_Type, infRoot. change 256%N with (2 ^ 8)%N. rewrite <- !N.land_ones.
  apply N.bits_inj. intro k. rewrite !N.land_spec, N.ldiff_spec.
  destruct (N.ltb_spec k 8) as [H|H].
  - replace (N.testbit 512 k) with false; [cbn; rewrite andb_true_r; reflexivity|].
    symmetry. change 512%N with (2 ^ 9)%N. apply N.pow2_bits_false. lia.
  - rewrite N.ones_spec_high by lia. rewrite !andb_false_r. reflexivity.
Qed.

Lemma opt_ref_eqb_spec a b : opt_ref_eqb a b = true <-> a = b.
Proof.
  destruct a as [a|], b as [b|]; simpl; split; intro H; try discriminate; auto.
  - apply Nat.eqb_eq in H. congruence.
  - injection H as ->. apply Nat.eqb_refl.
Qed.

Lemma Node_Document_get w v : Node_get w v = match getDoc w (Node_Document w v) with
  | Some d => getNode (dnodes d) (nid v) | None => None end.
Proof.
  unfold Node_get, Node_Document. destruct (getDoc w (ndoc v)) as [d|] eqn:E; auto.
  destruct (drev d =? nrev v)%N; [rewrite E|]; auto.
Qed.

Lemma Node_Document_some w v r : Node_Document w v = Some r -> ndoc v = Some r /\
  exists d, nth_error w r = Some d /\ drev d = nrev v.
Proof.
  unfold Node_Document. destruct (getDoc w (ndoc v)) as [d|] eqn:E; [|discriminate].
  destruct (N.eqb_spec (drev d) (nrev v)); [|discriminate]. intro H. split; auto.
  rewrite H in E. exists d. auto.
Qed.

(* On any arguments: the document is unchanged, or extended, or one root flag is cleared. *)
Lemma copyOrAdopt_gen w r d v to w' id :
  nth_error w r = Some d ->
  copyOrAdopt w r (Node_Document w v) (nid v) to = Ok (w', id) ->
  (Node_get w v = None /\ w' = w /\ id = maxUint) \/
  (exists n, Node_get w v = Some n /\
   exists ns', w' = putNodes w r ns' /\
   ((adopts w r to v /\ id = nid v /\ map unflag ns' = map unflag (dnodes d) /\
     ns' = putNode (dnodes d) (nid v) (mkNode (N.ldiff (ninfo n) infRoot) (nraw n) (nvalues n))) \/
    (~ adopts w r to v /\ id = lenN (dnodes d) /\
     exists o f other new, Node_Document w v = Some o /\ ndoc v = Some o /\
       ncopy f other (dnodes d) n = Some (ns', id) /\
       other = (if Nat.eqb o r then None else option_map dnodes (nth_error w o)) /\
       ns' = dnodes d ++ new /\ new <> [] /\
       forward (lenN (dnodes d)) new /\ NoDup (refs new)))).
Proof.
  intros Ed. unfold copyOrAdopt. rewrite Ed. pose proof (Node_Document_get w v) as G.
  destruct (Node_Document w v) as [r'|] eqn:Er; simpl getDoc in *.
  2:{ injection 1 as <- <-. auto. }
  apply Node_Document_some in Er as (Er & d' & Ed' & Hrev). rewrite Ed' in *.
  destruct (getNode (dnodes d') (nid v)) as [n|] eqn:En.
  2:{ injection 1 as <- <-. auto. }
  cbn [opt_ref_eqb].
  destruct (Nat.eqb r' r && negb (nid v =? to)%N && info_IsRoot (ninfo n) && negb (nid v =? 0)%N) eqn:Ea.
  - apply andb_prop in Ea as [Ea E0]. apply andb_prop in Ea as [Ea E1]. apply andb_prop in Ea as [Er' E2].
    apply Nat.eqb_eq in Er' as ->. apply negb_true_iff, N.eqb_neq in E0, E2.
    injection 1 as <- <-. right. exists n. split; auto. eexists. split; [reflexivity|]. left.
    assert (d' = d) by congruence. subst d'.
    split; [split; auto; exists n; auto|]. split; auto. split; auto.
    eapply map_unflag_put; eauto. unfold unflag. cbn. rewrite info_Type_unroot. reflexivity.
  - destruct (ncopy _ _ _ _) as [[ns cid]|] eqn:E; [|discriminate]. injection 1 as <- <-.
    right. exists n. split; auto. exists ns. split; auto. right.
    pose proof E as E1. apply ncopy_fresh in E as (-> & new & -> & Hne & R & D).
    split.
    + intros (A1 & n' & A2 & A3 & A4 & A5). assert (r' = r) by congruence. subst r'.
      assert (n' = n) by congruence. subst n'.
      rewrite Nat.eqb_refl, A3 in Ea. apply N.eqb_neq in A4, A5. rewrite A4, A5 in Ea. discriminate.
    + split; auto. exists r'. eexists _, _, new. split; auto. split; auto. split; [exact E1|]. split; auto.
      cbn [opt_ref_eqb]. change ref with nat. rewrite Ed'. reflexivity.
Qed.

Lemma copyOrAdopt_ext w r d v to w' id :
  nth_error w r = Some d -> copyOrAdopt w r (Node_Document w v) (nid v) to = Ok (w', id) ->
  exists ns', w' = putNodes w r ns' /\ ext (dnodes d) ns'.
Proof.
  intros Ed H. apply (copyOrAdopt_gen _ _ _ _ _ _ _ Ed) in H as [(_ & -> & _)|(n & _ & ns' & -> & [(_ & _ & E & _)|(_ & _ & o & f & other & new & _ & _ & _ & _ & -> & _ & R & _)])].
  - exists (dnodes d). split; [symmetry; apply putNodes_self; auto|apply ext_refl].
  - exists ns'. split; auto. apply ext_unflag; auto.
  - exists (dnodes d ++ new). split; auto. apply ext_app. apply forward_refsin in R. eapply refsin_mono; [| |exact R]; lia.
Qed.

(* On a value that denotes a tree it returns, and the id denotes that tree. *)
Lemma copyOrAdopt_tree w r d v t to :
  nth_error w r = Some d -> tree_of w v t ->
  exists ns' id, copyOrAdopt w r (Node_Document w v) (nid v) to = Ok (putNodes w r ns', id) /\
    ext (dnodes d) ns' /\ denotes ns' id t /\
    ((adopts w r to v /\ id = nid v) \/ (~ adopts w r to v /\ id = lenN (dnodes d))).
Proof.
  intros Ed T. pose proof T as (rv & dv & Erv & Edv & Hrev & D).
  assert (Gv : Node_Document w v = Some rv).
  { unfold Node_Document, getDoc. rewrite Erv, Edv, Hrev, N.eqb_refl. reflexivity. }
  destruct (getNode_some (dnodes dv) (nid v)) as (nv & Env); [eapply denotes_lt; eauto|].
  assert (Gn : Node_get w v = Some nv).
  { rewrite Node_Document_get, Gv. simpl. rewrite Edv. exact Env. }
  destruct (ncopy_spec t (depthFuel (dnodes dv)) (if opt_ref_eqb (Some rv) (Some r) then None else Some (dnodes dv))
          (dnodes dv) (nid v) nv (dnodes d) D Env) as (new' & En' & Eu).
  { cbn [opt_ref_eqb]. destruct (Nat.eqb_spec rv r) as [->|]; simpl; auto.
    exists []. rewrite app_nil_r. congruence. }
  { apply denotes_depth in D. unfold depthFuel. lia. }
  assert (E : exists ns' id, copyOrAdopt w r (Node_Document w v) (nid v) to = Ok (putNodes w r ns', id) /\
     ((id = nid v /\ rv = r) \/ (id = lenN (dnodes d) /\ ns' = dnodes d ++ new' /\ id = lenN (dnodes d)))).
  { unfold copyOrAdopt. rewrite Ed, Gv. simpl getDoc. rewrite Edv, Env. cbv zeta. change ref with nat in *.
    rewrite En'.
    destruct (opt_ref_eqb (Some rv) (Some r)) eqn:Eq; cbn [andb].
    - cbn [opt_ref_eqb] in Eq. apply Nat.eqb_eq in Eq.
      destruct (negb (nid v =? to)%N && info_IsRoot (ninfo nv) && negb (nid v =? 0)%N); eauto 10.
    - eauto 10. }
  destruct E as (ns' & id & E & Hid). exists ns', id. split; auto.
  pose proof (copyOrAdopt_ext _ _ _ _ _ _ _ Ed E) as (ns1 & Ew1 & X).
  assert (ns' = ns1).
  { pose proof (putNodes_same w r ns' d Ed). pose proof (putNodes_same w r ns1 d Ed). congruence. }
  subst ns1. clear Ew1. split; auto.
  apply (copyOrAdopt_gen _ _ _ _ _ _ _ Ed) in E as [(C & _)|(n & En & ns1 & Ew & Hc)]; [congruence|].
  assert (ns' = ns1).
  { pose proof (putNodes_same w r ns' d Ed). pose proof (putNodes_same w r ns1 d Ed). congruence. }
  subst ns1. clear Ew.
  destruct Hc as [(A & -> & Eu2 & _)|(A & -> & o & f & other & new & _ & _ & _ & _ & -> & Hne & R & _)].
  - split; [|left; auto]. destruct A as (Ar & _). assert (rv = r) by congruence. subst rv.
    assert (dv = d) by congruence. subst dv. eapply ext_denotes; eauto.
  - split; [|right; auto]. destruct Hid as [(Hid & ->)|(_ & Hns & _)].
    + exfalso. assert (dv = d) by congruence. subst dv. apply denotes_lt in D. lia.
    + rewrite Hns. apply denotes_unflag. rewrite map_app, Eu.
      replace (lenN (dnodes d)) with (lenN (map unflag (dnodes d))) by apply lenN_map.
      apply layout_denotes.
Qed.
