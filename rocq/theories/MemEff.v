(* The primitive steps as effects, and pending values. *)
From Coq Require Import Lia.
From Verif Require Import Bytes Tables Types Parser Doc DocProofs Api Mem MemSpec MemHeap.

Lemma grow_facts : forall h a extra h1, a < length (narrs h) ->
  h1 = mkH (varrs h) (narrs h ++ [narr h a ++ repeat zeroSlot extra]) ->
  (forall b, b < length (narrs h) -> narr h1 b = narr h b) /\
  narr h1 (length (narrs h)) = narr h a ++ repeat zeroSlot extra.
Proof.
  intros h a extra h1 La ->. split.
  - intros b Hb. unfold narr. simpl. apply app_nth1. exact Hb.
  - unfold narr at 1. simpl. rewrite app_nth2 by lia. rewrite Nat.sub_diag. reflexivity.
Qed.

Lemma grow_eff : forall B h k a extra, a < length (narrs h) -> B <= length (varrs h) -> wf h a ->
  k <= length (narr h a) ->
  eff B h k a (mkH (varrs h) (narrs h ++ [narr h a ++ repeat zeroSlot extra])) (length (narrs h)).
Proof.
  intros B h k a extra La HB W Hk.
  remember (mkH (varrs h) (narrs h ++ [narr h a ++ repeat zeroSlot extra])) as h1 eqn:Eh.
  destruct (grow_facts h a extra h1 La Eh) as [Old New].
  assert (Hv : varrs h1 = varrs h) by (subst h1; reflexivity).
  assert (Hx : forall x, varr h1 x = varr h x) by (intro; unfold varr; rewrite Hv; reflexivity).
  assert (Hn : length (narrs h1) = S (length (narrs h)))
    by (subst h1; simpl; rewrite app_length; simpl; lia).
  assert (Wa : wf h1 a).
  { eapply wf_narr_eq; eauto. rewrite Hv. lia. intros; rewrite Hx; reflexivity. }
  assert (G : forall i s, sget h1 (length (narrs h), i) = Some s ->
              sget h (a, i) = Some s \/ (length (narr h a) <= i /\ s = zeroSlot)).
  { intros i s H. unfold sget in *. simpl in *. rewrite New in H.
    destruct (Nat.lt_ge_cases i (length (narr h a))) as [L|L].
    - rewrite nth_error_app1 in H by exact L. left; exact H.
    - rewrite nth_error_app2 in H by exact L. apply nth_error_repeat_inv in H. right; split; assumption. }
  assert (O : forall i x, own h1 (length (narrs h)) i = Some x -> own h a i = Some x).
  { intros i x H. unfold own in *. destruct (sget h1 (length (narrs h), i)) as [s|] eqn:E; [|discriminate].
    apply G in E as [E|[_ E]]; [rewrite E; exact H|]. subst s. discriminate. }
  constructor; try lia.
  - constructor; auto; try lia.
    + rewrite Hv. lia.
    + intros. rewrite Hx. reflexivity.
    + rewrite Old by exact La. reflexivity.
    + intros. apply sget_narr_eq. auto.
    + intros i x _ H. left. rewrite <- H. symmetry. apply own_narr_eq. auto.
  - rewrite New, app_length. lia.
  - intros i Hi. unfold sget. simpl. rewrite New. apply nth_error_app1. lia.
  - intros i x _ H. left. auto.
  - split.
    + intros i s H. apply G in H as [H|[_ H]].
      * apply W in H. unfold inb in *. rewrite Hv. destruct (sarr (svals s)); [rewrite Hx|]; exact H.
      * subst s. reflexivity.
    + intros i j x H1 H2. apply O in H1, H2. eapply W; eauto.
Qed.

Section Acc.
Variables (B : nat) (h0 : heap) (k a0 : nat) (h : heap) (a : nat).
Hypothesis La0 : a0 < length (narrs h0).
Hypothesis E : eff B h0 k a0 h a.

Lemma acc_same_or : a0 = a \/ a0 <> a.
Proof. destruct (Nat.eq_dec a0 a); auto. Qed.

(* write to an array of V owned by a record from k on, or new *)
Lemma eff_wset : forall s l x, sarr s = Some x ->
  (exists i, k <= i /\ own h0 a0 i = Some x) \/ B <= x -> eff B h0 k a0 (wset h s l) a.
Proof.
  intros s l x Hs Hx. destruct E as [F Hnew Hlt Hcap Hlow Hown Hwf]. destruct F.
  assert (N : forall b, narr (wset h s l) b = narr h b) by (intro; apply wset_narr).
  assert (W : forall b, wf h b -> wf (wset h s l) b).
  { intros b Wb. eapply wf_narr_eq; eauto. rewrite wset_varrs_length; lia.
    intros; apply wset_varr_length. }
  constructor; auto.
  - constructor; auto.
    + rewrite wset_varrs_length. exact f_vlen.
    + intros y Hy. rewrite wset_varr_length. auto.
    + intros y Hy No. rewrite wset_varr_other; [auto|]. rewrite Hs. intro K. injection K as ->.
      destruct Hx as [[i [Hi K]]|K]; [exact (No i Hi K)|lia].
    + rewrite wset_narrs. exact f_nlen.
    + intros b Hb Nb. rewrite N. auto.
    + rewrite N. exact f_acap.
    + intros i Hi. rewrite wset_sget. auto.
    + intros i y Hi H. rewrite (own_narr_eq h) in H by auto. auto.
  - rewrite wset_narrs. exact Hlt.
  - rewrite N. exact Hcap.
  - intros i Hi. rewrite wset_sget. auto.
  - intros i y Hi H. rewrite (own_narr_eq h) in H by auto. auto.
Qed.

Lemma eff_valloc : forall l h' x, valloc h l = (h', x) -> eff B h0 k a0 h' a.
Proof.
  intros l h' x H. destruct E as [F Hnew Hlt Hcap Hlow Hown Hwf]. destruct F.
  assert (Nn : narrs h' = narrs h) by (unfold valloc in H; injection H as <- <-; reflexivity).
  assert (N : forall b, narr h' b = narr h b) by (intro; unfold narr; rewrite Nn; reflexivity).
  assert (V : length (varrs h') = S (length (varrs h)))
    by (unfold valloc in H; injection H as <- <-; simpl; rewrite app_length; simpl; lia).
  assert (Old : forall y, y < length (varrs h) -> varr h' y = varr h y)
    by (intros; eapply valloc_varr_old; eauto).
  assert (W : forall b, wf h b -> wf h' b).
  { intros b Wb. eapply wf_narr_eq; eauto. lia. intros; rewrite Old by assumption; reflexivity. }
  constructor; auto.
  - constructor; auto; try lia.
    + intros y Hy. rewrite Old by lia. auto.
    + intros y Hy No. rewrite Old by lia. auto.
    + rewrite Nn. exact f_nlen.
    + intros b Hb Nb. rewrite N. auto.
    + rewrite N. exact f_acap.
    + intros i Hi. rewrite (sget_narr_eq h) by auto. auto.
    + intros i y Hi K. rewrite (own_narr_eq h) in K by auto. auto.
  - rewrite Nn. exact Hlt.
  - rewrite N. exact Hcap.
  - intros i Hi. rewrite (sget_narr_eq h) by auto. auto.
  - intros i y Hi K. rewrite (own_narr_eq h) in K by auto. auto.
Qed.

Lemma own_sput : forall i z x j b, own (sput h (a, i) z) b j = Some x ->
  (b = a /\ j = i /\ sarr (svals z) = Some x) \/ ((b <> a \/ j <> i) /\ own h b j = Some x).
Proof.
  intros i z x j b H. unfold own in *. rewrite sput_sget in H.
  destruct (Nat.eqb_spec a b) as [Eb|Eb]; [destruct (Nat.eqb_spec i j) as [Ei|Ei]|]; simpl in H.
  - destruct (i <? length (narr h a)) eqn:L; [left; auto|].
    subst. apply Nat.ltb_ge in L. unfold sget in H. simpl in H.
    rewrite (proj2 (nth_error_None _ _)) in H by exact L. discriminate.
  - right. auto.
  - right. auto.
Qed.

(* store a record of the array in use *)
Lemma eff_put : forall i z, k <= i -> inb h (svals z) ->
  (forall x, sarr (svals z) = Some x ->
     (own h0 a0 i = Some x \/ B <= x) /\ forall j, j <> i -> own h a j <> Some x) ->
  eff B h0 k a0 (sput h (a, i) z) a.
Proof.
  intros i z Hi Hb Hz. destruct E as [F Hnew Hlt Hcap Hlow Hown Hwf]. destruct F.
  assert (Ww : wf (sput h (a, i) z) a).
  { split.
    - intros j s H. change (inb h (svals s)). rewrite sput_sget, Nat.eqb_refl in H. simpl in H.
      destruct ((i =? j) && (i <? length (narr h a))).
      + injection H as <-. exact Hb.
      + eapply Hwf; eauto.
    - intros j j' x H1 H2. apply own_sput in H1, H2.
      destruct H1 as [(_ & -> & K1)|(N1 & K1)]; destruct H2 as [(_ & -> & K2)|(N2 & K2)].
      + reflexivity.
      + exfalso. destruct N2 as [N2|N2]; [congruence|]. exact (proj2 (Hz x K1) j' N2 K2).
      + exfalso. destruct N1 as [N1|N1]; [congruence|]. exact (proj2 (Hz x K2) j N1 K1).
      + eapply Hwf; eauto. }
  constructor; auto.
  - constructor; auto.
    + rewrite sput_narrs_length. exact f_nlen.
    + intros b Hb' Nb. destruct (Nat.eq_dec a b) as [Eb|Eb].
      * subst b. destruct Hnew; [congruence|lia].
      * rewrite sput_narr_other by (simpl; exact Eb). auto.
    + rewrite sput_narr_length. exact f_acap.
    + intros j Hj. rewrite sput_other by (intro K; injection K; lia). auto.
    + intros j x Hj H. apply own_sput in H as [(Ea & -> & K)|(_ & K)].
      * apply (Hz x K).
      * auto.
    + destruct acc_same_or as [Ea|Ea]; [rewrite Ea; exact Ww|].
      eapply wf_narr_eq; eauto. rewrite sput_narr_other by (simpl; congruence). reflexivity.
  - rewrite sput_narrs_length. exact Hlt.
  - rewrite sput_narr_length. exact Hcap.
  - intros j Hj. rewrite sput_other by (intro K; injection K; lia). auto.
  - intros j x Hj H. apply own_sput in H as [(_ & -> & K)|(_ & K)].
    + apply (Hz x K).
    + auto.
Qed.

(* store a record of the first array, whose slice stays in the same array of V *)
Lemma eff_put0 : forall i z, k <= i -> inb h (svals z) ->
  (forall x, sarr (svals z) = Some x -> own h a0 i = Some x) ->
  eff B h0 k a0 (sput h (a0, i) z) a.
Proof.
  intros i z Hi Hb Hz. destruct acc_same_or as [Ea|Ea].
  - replace (sput h (a0, i) z) with (sput h (a, i) z) by (rewrite Ea; reflexivity).
    apply eff_put; [exact Hi|exact Hb|]. intros x K. apply Hz in K.
    assert (Ka : own h a i = Some x) by (rewrite <- Ea; exact K). split.
    + apply (e_own _ _ _ _ _ _ E i x Hi Ka).
    + intros j Nj K'. apply Nj. eapply (proj2 (e_wf _ _ _ _ _ _ E)); eauto.
  - destruct E as [F Hnew Hlt Hcap Hlow Hown Hwf]. destruct F.
    assert (Na : narr (sput h (a0, i) z) a = narr h a) by (apply sput_narr_other; simpl; congruence).
    assert (Sg : forall j, j <> i -> sget (sput h (a0, i) z) (a0, j) = sget h (a0, j)).
    { intros j Nj. apply sput_other. intro K; injection K; congruence. }
    assert (Ow : forall j x, own (sput h (a0, i) z) a0 j = Some x -> own h a0 j = Some x).
    { intros j x H. unfold own in H. rewrite sput_sget, Nat.eqb_refl in H. simpl in H.
      destruct (Nat.eqb_spec i j) as [<-|Nj]; simpl in H; [|exact H].
      destruct (i <? length (narr h a0)); [apply Hz; exact H|exact H]. }
    constructor; auto.
    + constructor; auto.
      * rewrite sput_narrs_length. exact f_nlen.
      * intros b Hb' Nb. rewrite sput_narr_other by (simpl; congruence). auto.
      * rewrite sput_narr_length. exact f_acap.
      * intros j Hj. rewrite Sg by lia. auto.
      * split.
        -- intros j s H. change (inb h (svals s)). rewrite sput_sget, Nat.eqb_refl in H. simpl in H.
           destruct ((i =? j) && (i <? length (narr h a0))).
           ++ injection H as <-. exact Hb.
           ++ eapply f_wf; eauto.
        -- intros j j' x H1 H2. apply Ow in H1, H2. eapply f_wf; eauto.
    + rewrite sput_narrs_length. exact Hlt.
    + rewrite Na. exact Hcap.
    + intros j Hj. rewrite (sget_narr_eq h) by exact Na. auto.
    + intros j x Hj H. rewrite (own_narr_eq h) in H by exact Na. auto.
    + eapply wf_narr_eq; eauto.
Qed.

End Acc.

(* records lo..hi-1 of array a stand for the nodes of ns *)
Definition rng (h : heap) (a lo hi : nat) (ns : list node) : Prop :=
  forall i, lo <= i < hi -> option_map (snode h) (sget h (a, i)) = nth_error ns i.

Lemma rng_eff : forall h n a h' a' lo ns, eff (length (varrs h)) h n a h' a' -> wf h a ->
  rng h a lo n ns -> rng h' a' lo n ns.
Proof.
  intros h n a h' a' lo ns E W R i Hi. rewrite <- (R i Hi). rewrite (e_low _ _ _ _ _ _ E) by lia.
  destruct (sget h (a, i)) as [s|] eqn:G; [|reflexivity]. simpl. f_equal. unfold snode. f_equal.
  apply sread_same. intros x Hx. apply (f_varr _ _ _ _ _ (e_frame _ _ _ _ _ _ E)).
  - apply W in G. unfold inb in G. rewrite Hx in G. apply G.
  - intros j Hj K. assert (i = j); [|lia]. eapply (proj2 W); [|exact K].
    unfold own. rewrite G. exact Hx.
Qed.

Lemma rng_same : forall h h' a lo hi ns, rng h a lo hi ns ->
  (forall i, lo <= i < hi -> sget h' (a, i) = sget h (a, i)) ->
  (forall i x, lo <= i < hi -> own h a i = Some x -> varr h' x = varr h x) ->
  rng h' a lo hi ns.
Proof.
  intros h h' a lo hi ns R S V i Hi. rewrite <- (R i Hi), S by exact Hi.
  destruct (sget h (a, i)) as [s|] eqn:G; [|reflexivity]. simpl. f_equal. unfold snode. f_equal.
  apply sread_same. intros x Hx. apply (V i x Hi). unfold own. rewrite G. exact Hx.
Qed.

(* values under construction for record id: the first numV elements are l *)
Record pend (B : nat) (h0 : heap) (a0 : nat) (h : heap) (a id : nat) (vs : slice) (numV : nat) (l : list V) : Prop := {
  p_inb : inb h vs;
  p_num : numV <= slen vs;
  p_len : length l = numV;
  p_read : firstn numV (sread h vs) = l;
  p_base : forall x, sarr vs = Some x -> own h0 a0 id = Some x \/ B <= x;
  p_free : forall x j, sarr vs = Some x -> j <> id -> own h a j <> Some x
}.

Lemma firstn_overwrite : forall (l : list V) n v, n < length l ->
  firstn (S n) (overwrite l n [v]) = firstn n l ++ [v].
Proof.
  intros l n v H. rewrite overwrite_window by (simpl; lia).
  rewrite firstn_app, firstn_firstn, firstn_length.
  replace (Nat.min (S n) n) with n by lia. replace (S n - Nat.min n (length l)) with 1 by lia.
  reflexivity.
Qed.

Lemma sread_wset : forall h s l, inb h s -> length l <= slen s ->
  sread (wset h s l) s = overwrite (sread h s) 0 l.
Proof.
  intros h s l Hb Hl. unfold inb in Hb. destruct (sarr s) as [x|] eqn:Hs.
  - destruct Hb as [Lx Lb]. apply nth_error_ext. intro i.
    rewrite (sread_nth _ s x) by exact Hs. rewrite overwrite_nth.
    rewrite (wset_varr_same h s l x Hs Lx), overwrite_nth.
    rewrite sread_length by (unfold inb; rewrite Hs; auto).
    rewrite (sread_nth h s x) by exact Hs. simpl.
    destruct (Nat.ltb_spec i (slen s)) as [Li|Li].
    + replace (soff s <=? soff s + i) with true by (symmetry; apply Nat.leb_le; lia).
      replace (soff s + i <? length (varr h x)) with true by (symmetry; apply Nat.ltb_lt; lia).
      replace (soff s + i <? soff s + length l) with (i <? length l)
        by (destruct (Nat.ltb_spec i (length l)), (Nat.ltb_spec (soff s + i) (soff s + length l)); lia).
      simpl. rewrite andb_true_r. destruct (i <? length l); [|reflexivity].
      f_equal; lia.
    + rewrite andb_false_r. reflexivity.
  - unfold sread. rewrite Hs. destruct l; [reflexivity|]. simpl in Hl. rewrite Hb in Hl. lia.
Qed.

(* writing through a part of a slice *)
Lemma sread_wset_from : forall h s i l, inb h s -> i + length l <= slen s ->
  sread (wset h (sfrom s i) l) s = overwrite (sread h s) i l.
Proof.
  intros h s i l Hb Hl. unfold inb in Hb. destruct (sarr s) as [x|] eqn:Hs.
  - destruct Hb as [Lx Lb]. apply nth_error_ext. intro j.
    rewrite (sread_nth _ s x) by exact Hs. rewrite overwrite_nth.
    rewrite (wset_varr_same h (sfrom s i) l x Hs Lx), overwrite_nth.
    rewrite sread_length by (unfold inb; rewrite Hs; auto).
    rewrite (sread_nth h s x) by exact Hs. simpl.
    destruct (Nat.ltb_spec j (slen s)) as [Li|Li].
    + replace (soff s + j <? length (varr h x)) with true by (symmetry; apply Nat.ltb_lt; lia).
      replace (soff s + i <=? soff s + j) with (i <=? j)
        by (destruct (Nat.leb_spec i j), (Nat.leb_spec (soff s + i) (soff s + j)); lia).
      replace (soff s + j <? soff s + i + length l) with (j <? i + length l)
        by (destruct (Nat.ltb_spec j (i + length l)), (Nat.ltb_spec (soff s + j) (soff s + i + length l)); lia).
      rewrite !andb_true_r. destruct ((i <=? j) && (j <? i + length l)) eqn:C; [|reflexivity].
      f_equal; lia.
    + rewrite andb_false_r. reflexivity.
  - unfold sread. rewrite Hs. reflexivity.
Qed.

Lemma inb_wset : forall h s l t, inb h t -> inb (wset h s l) t.
Proof.
  intros h s l t H. eapply inb_grow; eauto. rewrite wset_varrs_length; lia.
  intros; apply wset_varr_length.
Qed.

(* appendV at the next index *)
Lemma appendV_pend : forall B h0 k a0 h a id vs numV l v h' vs',
  a0 < length (narrs h0) -> eff B h0 k a0 h a -> k <= id -> pend B h0 a0 h a id vs numV l ->
  m_appendV h vs v numV = (h', vs') ->
  eff B h0 k a0 h' a /\ pend B h0 a0 h' a id vs' (S numV) (l ++ [v]) /\ narrs h' = narrs h /\
  length (varrs h) <= length (varrs h') /\
  (forall x, x < length (varrs h) -> sarr vs <> Some x -> varr h' x = varr h x) /\
  ((vs' = vs /\ numV < slen vs) \/
   (slen vs <= numV /\ forall x, sarr vs' = Some x -> length (varrs h) <= x)).
Proof.
  intros B h0 k a0 h a id vs numV l v h' vs' La0 E Hk P H.
  destruct P as [Pi Pn Pl Pr Pb Pf]. unfold m_appendV in H.
  destruct (Nat.ltb_spec numV (slen vs)) as [L|L].
  - injection H as <- <-. unfold wput.
    assert (exists x, sarr vs = Some x) as [x Hx].
    { unfold inb in Pi. destruct (sarr vs) as [x|]; [eauto|lia]. }
    assert (E' : eff B h0 k a0 (wset h (sfrom vs numV) [v]) a).
    { eapply eff_wset; eauto. destruct (Pb x Hx) as [K|K]; [left; exists id; auto|right; exact K]. }
    split; [exact E'|]. split; [|split; [apply wset_narrs|split; [rewrite wset_varrs_length; lia|split]]].
    + constructor.
      * apply inb_wset. exact Pi.
      * lia.
      * rewrite app_length. simpl. lia.
      * rewrite sread_wset_from by (simpl; auto; lia).
        rewrite firstn_overwrite by (rewrite sread_length by exact Pi; exact L). rewrite Pr. reflexivity.
      * exact Pb.
      * intros y j Hy Nj. rewrite (own_narr_eq h) by apply wset_narr. eauto.
    + intros y Ly Ny. apply wset_varr_other. exact Ny.
    + left; auto.
  - assert (HN : numV = slen vs) by lia. revert Pl. subst numV. intro Pl.
    destruct (valloc h (sread h vs ++ repeat zeroV (slen vs + 1))) as [h1 x] eqn:A.
    set (s' := mkS (Some x) 0 (2 * slen vs + 1)) in *.
    replace (slen vs <? slen s') with true in H by (symmetry; apply Nat.ltb_lt; unfold s'; simpl; lia).
    injection H as <- <-.
    assert (Hx : x = length (varrs h)) by (unfold valloc in A; injection A; auto).
    assert (V1 : length (varrs h1) = S (length (varrs h)))
      by (unfold valloc in A; injection A as <- <-; simpl; rewrite app_length; simpl; lia).
    assert (N1 : narrs h1 = narrs h) by (unfold valloc in A; injection A as <- <-; reflexivity).
    assert (New : varr h1 x = sread h vs ++ repeat zeroV (slen vs + 1)) by (eapply valloc_varr_new; eauto).
    assert (Old : forall y, y < length (varrs h) -> varr h1 y = varr h y)
      by (intros; eapply valloc_varr_old; eauto).
    assert (Ib : inb h1 s').
    { unfold inb, s'. simpl. rewrite New, app_length, sread_length, repeat_length by exact Pi. lia. }
    assert (BB : B <= length (varrs h)).
    { pose proof (f_B _ _ _ _ _ (e_frame _ _ _ _ _ _ E)). pose proof (f_vlen _ _ _ _ _ (e_frame _ _ _ _ _ _ E)). lia. }
    assert (E1 : eff B h0 k a0 h1 a) by (eapply eff_valloc; eauto).
    split; [|split; [|split; [|split; [|split]]]].
    + unfold wput. apply (eff_wset _ _ _ _ _ _ La0 E1 (sfrom s' (slen vs)) [v] x eq_refl). right. lia.
    + constructor.
      * apply inb_wset. exact Ib.
      * unfold s'; simpl; lia.
      * rewrite app_length. simpl. lia.
      * unfold wput. rewrite sread_wset_from; [|exact Ib|unfold s'; simpl; lia].
        rewrite firstn_overwrite by (rewrite sread_length by exact Ib; unfold s'; simpl; lia).
        f_equal. rewrite <- Pr. unfold sread at 1. unfold s'. simpl. rewrite New.
        rewrite firstn_firstn. replace (Nat.min (slen vs) (slen vs + (slen vs + 0) + 1)) with (slen vs) by lia.
        rewrite firstn_app, sread_length by exact Pi. rewrite Nat.sub_diag. simpl. rewrite app_nil_r. reflexivity.
      * intros y Hy. right. unfold s' in Hy. simpl in Hy. injection Hy as <-. lia.
      * intros y j Hy Nj K. unfold s' in Hy. simpl in Hy. injection Hy as <-.
        rewrite (own_narr_eq h) in K by (unfold wput; rewrite wset_narr; unfold narr; rewrite N1; reflexivity).
        apply wf_own_lt in K; [lia|]. apply E.
    + unfold wput. rewrite wset_narrs. exact N1.
    + unfold wput. rewrite wset_varrs_length. lia.
    + intros y Ly Ny. unfold wput. rewrite wset_varr_other; [auto|]. unfold s'. simpl. intro K. injection K as K. lia.
    + right. split; [lia|]. intros y Hy. unfold s' in Hy. simpl in Hy. injection Hy as <-. lia.
Qed.

(* pending values survive work on later records *)
Lemma pend_eff : forall B h0 a0 h a id vs numV l n h' a', id < n ->
  eff (length (varrs h)) h n a h' a' -> pend B h0 a0 h a id vs numV l -> pend B h0 a0 h' a' id vs numV l.
Proof.
  intros B h0 a0 h a id vs numV l n h' a' Hid E P. destruct P as [Pi Pn Pl Pr Pb Pf].
  pose proof (e_frame _ _ _ _ _ _ E) as F.
  constructor; auto.
  - eapply inb_grow; eauto. apply F. apply F.
  - rewrite <- Pr. f_equal. apply sread_same. intros x Hx. apply (f_varr _ _ _ _ _ F).
    + unfold inb in Pi. rewrite Hx in Pi. apply Pi.
    + intros i Hi. apply Pf; [exact Hx|lia].
  - intros x j Hx Nj K. apply (own_grow_split _ _ _ _ _ _ _ _ E) in K as [K|[_ K]].
    + exact (Pf x j Hx Nj K).
    + unfold inb in Pi. rewrite Hx in Pi. lia.
Qed.
