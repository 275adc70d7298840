(* The parser on memory does what the parser on lists does. *)
From Coq Require Import Lia.
From Verif Require Import Bytes Tables Types Parser Doc DocProofs Api Mem MemSpec MemHeap MemEff.

Lemma p_node_eff : forall h a n h1 a1, a < length (narrs h) -> wf h a -> n <= length (narr h a) ->
  p_node h a n = (h1, a1) ->
  eff (length (varrs h)) h n a h1 a1 /\ varrs h1 = varrs h /\ exists x, sget h1 (a1, n) = Some x.
Proof.
  intros h a n h1 a1 La W Hn H. unfold p_node in H.
  destruct (Nat.ltb_spec n (length (narr h a))) as [L|L]; injection H as <- <-.
  - split; [apply eff_refl; auto|]. split; [reflexivity|].
    unfold sget. simpl. destruct (nth_error (narr h a) n) eqn:G; [eauto|].
    apply nth_error_None in G. lia.
  - split; [apply grow_eff; auto|]. split; [reflexivity|]. unfold sget. simpl.
    destruct (grow_facts h a (length (narr h a) + 1) _ La eq_refl) as [_ New]. rewrite New.
    exists zeroSlot. rewrite nth_error_app2 by lia. replace (n - length (narr h a)) with 0 by lia.
    rewrite Nat.add_comm. reflexivity.
Qed.

Lemma blank_eff : forall B h0 k a0 h a i x info raw h', a0 < length (narrs h0) ->
  eff B h0 k a0 h a -> k <= i -> sget h (a, i) = Some x -> p_blank h (a, i) info raw = Some h' ->
  eff B h0 k a0 h' a /\ option_map (snode h') (sget h' (a, i)) = Some (mkNode info raw []) /\
  (forall j, j <> i -> sget h' (a, j) = sget h (a, j)) /\
  (forall y, own h a i <> Some y -> varr h' y = varr h y).
Proof.
  intros B h0 k a0 h a i x info raw h' La0 E Hk G H. unfold p_blank in H. rewrite G in H. injection H as <-.
  assert (O : own h a i = sarr (svals x)) by (unfold own; rewrite G; reflexivity).
  assert (E1 : eff B h0 k a0 (wclear h (svals x)) a).
  { unfold wclear. destruct (sarr (svals x)) as [y|] eqn:Hs.
    - apply (eff_wset _ _ _ _ _ _ La0 E (svals x) _ y Hs). apply (e_own _ _ _ _ _ _ E i y Hk) in O.
      destruct O as [O|O]; [left; exists i; auto|right; exact O].
    - unfold wset. rewrite Hs. exact E. }
  assert (G1 : sget (wclear h (svals x)) (a, i) = Some x) by (unfold wclear; rewrite wset_sget; exact G).
  assert (Ib : inb h (svals x)) by (eapply (proj1 (e_wf _ _ _ _ _ _ E)); eauto).
  split; [|split; [|split]].
  - apply eff_put; auto.
    + simpl. unfold inb in *. simpl. destruct (sarr (svals x)) as [y|]; [|reflexivity].
      unfold wclear. rewrite wset_varrs_length, wset_varr_length. lia.
    + simpl. intros y Hy. rewrite <- O in Hy. split.
      * apply (e_own _ _ _ _ _ _ E i y Hk Hy).
      * intros j Nj K. rewrite (own_narr_eq h) in K by (unfold wclear; apply wset_narr).
        apply Nj. eapply (proj2 (e_wf _ _ _ _ _ _ E)); eauto.
  - rewrite (sput_same _ _ _ _ _ G1). simpl. unfold snode. simpl. f_equal. f_equal.
    unfold sread. simpl. destruct (sarr (svals x)); reflexivity.
  - intros j Nj. rewrite sput_other by congruence. unfold wclear. apply wset_sget.
  - intros y Hy. rewrite sput_varr. unfold wclear. apply wset_varr_other. congruence.
Qed.

Definition sim (B : nat) (h0 : heap) (k0 a0 : nat) (ns0 : list node) (r : pres) (mr : mpres) : Prop :=
  match r, mr with
  | POk ns' pos rest, MOk h' a' n' pos' rest' =>
      pos' = pos /\ rest' = rest /\ eff B h0 k0 a0 h' a' /\ n' = length ns' /\ n' <= length (narr h' a') /\
      firstn k0 ns' = ns0 /\ rng h' a' k0 n' ns'
  | PErr e, MErr h' e' => e' = e /\ frame B h0 k0 a0 h'
  | PFuel, MFuel => True
  | _, _ => False
  end.

Lemma sim_base : forall B h0 k a0 h a ns0 r mr, a0 < length (narrs h0) -> length ns0 = k ->
  eff B h0 k a0 h a -> sim (length (varrs h)) h k a ns0 r mr -> sim B h0 k a0 ns0 r mr.
Proof.
  intros B h0 k a0 h a ns0 r mr La Hk E S.
  assert (HB : B <= length (varrs h)).
  { pose proof (f_B _ _ _ _ _ (e_frame _ _ _ _ _ _ E)). pose proof (f_vlen _ _ _ _ _ (e_frame _ _ _ _ _ _ E)). lia. }
  destruct r, mr; simpl in *; auto.
  - destruct S as (-> & -> & S & S'). split; [reflexivity|]. split; [reflexivity|]. split; [|exact S'].
    eapply eff_trans; eauto. eapply eff_weaken; eauto.
  - destruct S as (-> & S). split; [reflexivity|]. eapply frame_trans; eauto. eapply frame_weaken; eauto.
Qed.

Lemma done_sim : forall h a n ns info raw pos rest, a < length (narrs h) -> wf h a ->
  n <= length (narr h a) -> length ns = n ->
  sim (length (varrs h)) h n a ns (pdone ns info raw pos rest) (m_done h a n info raw pos rest).
Proof.
  intros h a n ns info raw pos rest La W Hn Hl. unfold m_done, pdone.
  destruct (p_node h a n) as [h1 a1] eqn:P.
  destruct (p_node_eff h a n h1 a1 La W Hn P) as (E1 & V1 & x & G).
  destruct (p_blank h1 (a1, n) info raw) as [h2|] eqn:Bk.
  2:{ unfold p_blank in Bk. rewrite G in Bk. discriminate. }
  destruct (blank_eff _ _ _ _ _ _ _ _ _ _ _ La E1 (le_n n) G Bk) as (E2 & R & S & _).
  simpl. split; [reflexivity|]. split; [reflexivity|]. split; [exact E2|].
  split; [rewrite app_length; simpl; lia|]. split.
  - destruct (sget h2 (a1, n)) eqn:G2; [|discriminate]. apply sget_narr in G2. lia.
  - split.
    + rewrite firstn_app. rewrite Hl, Nat.sub_diag. rewrite firstn_all2 by lia. simpl. apply app_nil_r.
    + intros i Hi. assert (i = n) by lia. subst i. rewrite R. rewrite nth_error_app2 by lia.
      rewrite Hl, Nat.sub_diag. reflexivity.
Qed.

Lemma literal_sim : forall h a n ns info typ lit s pos, a < length (narrs h) -> wf h a ->
  n <= length (narr h a) -> length ns = n ->
  sim (length (varrs h)) h n a ns (readLiteral ns info typ lit s pos) (m_literal h a n info typ lit s pos).
Proof.
  intros. unfold readLiteral, m_literal.
  destruct (length lit <=? length s); [|simpl; split; [reflexivity|apply frame_refl; auto]].
  destruct (bseqb (firstn (length lit) s) lit); [apply done_sim; auto|].
  simpl; split; [reflexivity|apply frame_refl; auto].
Qed.

(* In the middle of an array or object whose record is id; a0 is the array the pointer n is in. *)
Record core (B : nat) (h0 : heap) (id a0 : nat) (ns0 : list node) (h : heap) (a n : nat) (ns : list node)
  (vs : slice) (numV : nat) (l : list V) : Prop := {
  c_la : a0 < length (narrs h0);
  c_eff : eff B h0 id a0 h a;
  c_n : n = length ns;
  c_id : id < n;
  c_cap : n <= length (narr h a);
  c_ns0 : firstn id ns = ns0;
  c_rng : rng h a (S id) n ns;
  c_rec : exists y nd, sget h (a, id) = Some y /\ nth_error ns id = Some nd /\
                       sinfo y = ninfo nd /\ sraw y = nraw nd;
  c_pend : pend B h0 a0 h a id vs numV l
}.
Record mid (B : nat) (h0 : heap) (id a0 : nat) (ns0 : list node) (h : heap) (a n : nat) (ns : list node)
  (vs : slice) (numV : nat) (l : list V) : Prop := {
  m_la : a0 < length (narrs h0);
  m_eff : eff B h0 id a0 h a;
  m_n : n = length ns;
  m_id : id < n;
  m_cap : n <= length (narr h a);
  m_ns0 : firstn id ns = ns0;
  m_rng : rng h a (S id) n ns;
  m_rec : exists y nd, sget h (a, id) = Some y /\ nth_error ns id = Some nd /\
                       sinfo y = ninfo nd /\ sraw y = nraw nd;
  m_pend : pend B h0 a0 h a id vs numV l;
  m_ptr : exists x, sget h (a0, id) = Some x /\
            ((sarr vs = sarr (svals x) /\ soff vs = soff (svals x) /\ slen (svals x) <= slen vs) \/
             slen (svals x) <= numV)
}.

Lemma mid_core : forall B h0 id a0 ns0 h a n ns vs numV l, mid B h0 id a0 ns0 h a n ns vs numV l ->
  core B h0 id a0 ns0 h a n ns vs numV l.
Proof. intros. destruct H. constructor; assumption. Qed.

Lemma pend_lt : forall B h0 a0 h a id vs numV l x, pend B h0 a0 h a id vs numV l -> sarr vs = Some x ->
  x < length (varrs h).
Proof. intros. destruct H. unfold inb in p_inb. rewrite H0 in p_inb. apply p_inb. Qed.

Lemma mid_append : forall B h0 id a0 ns0 h a n ns vs numV l v h' vs',
  mid B h0 id a0 ns0 h a n ns vs numV l -> m_appendV h vs v numV = (h', vs') ->
  mid B h0 id a0 ns0 h' a n ns vs' (S numV) (l ++ [v]).
Proof.
  intros B h0 id a0 ns0 h a n ns vs numV l v h' vs' M H. destruct M.
  destruct (appendV_pend _ _ _ _ _ _ _ _ _ _ _ _ _ m_la0 m_eff0 (le_n id) m_pend0 H)
    as (E' & P' & N' & V' & Vx & C).
  assert (Sg : forall p, sget h' p = sget h p) by (intro; unfold sget, narr; rewrite N'; reflexivity).
  constructor; auto.
  - unfold narr. rewrite N'. exact m_cap0.
  - eapply rng_same; eauto. intros i x Hi O. apply Vx.
    + eapply wf_own_lt; eauto. apply m_eff0.
    + intro K. exact (p_free _ _ _ _ _ _ _ _ _ m_pend0 x i K ltac:(lia) O).
  - destruct m_rec0 as (y & nd & Q). exists y, nd. rewrite Sg. exact Q.
  - destruct m_ptr0 as (x & G & D). exists x. rewrite Sg. split; [exact G|].
    destruct C as [[-> L]|[L _]]; [destruct D as [D|D]; [left; exact D|right; lia]|].
    right. destruct D as [D|D]; lia.
Qed.

Lemma mid_nested : forall B h0 id a0 ns0 h a n ns vs numV l h' a' n' ns',
  mid B h0 id a0 ns0 h a n ns vs numV l ->
  eff (length (varrs h)) h n a h' a' -> n' = length ns' -> n' <= length (narr h' a') ->
  firstn n ns' = ns -> rng h' a' n n' ns' ->
  mid B h0 id a0 ns0 h' a' n' ns' vs numV l.
Proof.
  intros B h0 id a0 ns0 h a n ns vs numV l h' a' n' ns' M E Hn' Hc F R. destruct M.
  assert (HB : B <= length (varrs h)).
  { pose proof (f_B _ _ _ _ _ (e_frame _ _ _ _ _ _ m_eff0)). pose proof (f_vlen _ _ _ _ _ (e_frame _ _ _ _ _ _ m_eff0)). lia. }
  assert (Ln : n <= n').
  { subst n'. rewrite m_n0, <- F. rewrite firstn_length. lia. }
  assert (Nth : forall i, i < n -> nth_error ns' i = nth_error ns i).
  { intros i Hi. rewrite <- F. rewrite nth_error_firstn. apply Nat.ltb_lt in Hi. rewrite Hi. reflexivity. }
  constructor; auto; try lia.
  - eapply eff_trans; eauto. eapply eff_weaken; eauto; lia.
  - rewrite <- m_ns1. rewrite <- F. rewrite firstn_firstn. f_equal. lia.
  - intros i Hi. destruct (Nat.lt_ge_cases i n) as [L|L].
    + rewrite Nth by exact L. apply (rng_eff h n a h' a' (S id) ns); auto. apply m_eff0. lia.
    + apply R. lia.
  - destruct m_rec0 as (y & nd & G & Q & I1 & I2). exists y, nd.
    rewrite (e_low _ _ _ _ _ _ E) by exact m_id0. rewrite Nth by exact m_id0. auto.
  - eapply pend_eff; eauto.
  - destruct m_ptr0 as (x & G & D). exists x. split; [|exact D]. rewrite <- G.
    destruct (Nat.eq_dec a0 a) as [->|Na].
    + apply (f_low _ _ _ _ _ (e_frame _ _ _ _ _ _ E)). exact m_id0.
    + apply sget_narr_eq. apply (f_narr _ _ _ _ _ (e_frame _ _ _ _ _ _ E)); [|exact Na].
      apply sget_narr in G. apply G.
Qed.

Lemma setValues_nth : forall ns id vs i, nth_error (setValues ns id vs) i =
  if i =? id then option_map (fun n => mkNode (ninfo n) (nraw n) vs) (nth_error ns i) else nth_error ns i.
Proof.
  induction ns as [|n r IH]; intros id vs i; simpl.
  - destruct (i =? id); destruct i; reflexivity.
  - destruct id as [|id]; destruct i as [|i]; simpl; try reflexivity. apply IH.
Qed.
Lemma setValues_length : forall ns id vs, length (setValues ns id vs) = length ns.
Proof. induction ns as [|n r IH]; intros [|id] vs; simpl; auto. Qed.

Lemma sread_sto : forall h s j, j <= slen s -> sread h (sto s j) = firstn j (sread h s).
Proof.
  intros h s j H. unfold sread. simpl. destruct (sarr s).
  - rewrite firstn_firstn. f_equal. lia.
  - symmetry; apply firstn_nil.
Qed.

Lemma sread_wset_past : forall h s i l, sread (wset h (sfrom s i) l) (sto s i) = sread h (sto s i).
Proof.
  intros h s i l. unfold sread. simpl. destruct (sarr s) as [x|] eqn:Hs; [|reflexivity].
  destruct (Nat.lt_ge_cases x (length (varrs h))) as [L|L].
  - rewrite (wset_varr_same h (sfrom s i) l x) by assumption. simpl.
    apply nth_error_ext. intro j. rewrite !nth_error_firstn, !nth_error_skipn, overwrite_nth.
    destruct (Nat.ltb_spec j i); [|reflexivity].
    replace (soff s + i <=? soff s + j) with false by (symmetry; apply Nat.leb_gt; lia). reflexivity.
  - f_equal. f_equal. unfold wset. simpl. rewrite Hs. unfold varr at 1. simpl. rewrite nth_replaceNth.
    apply Nat.ltb_ge in L. rewrite L, andb_false_r. reflexivity.
Qed.

(* storing the pending values in record id *)
Lemma mid_store : forall B h0 id a0 ns0 h a n ns vs numV l vs' h' y,
  core B h0 id a0 ns0 h a n ns vs numV l -> sarr vs' = sarr vs -> inb h vs' -> sread h vs' = l ->
  sget h (a, id) = Some y -> h' = sput h (a, id) (setVals y vs') ->
  eff B h0 id a0 h' a /\ length (setValues ns id l) = n /\ n <= length (narr h' a) /\
  firstn id (setValues ns id l) = ns0 /\ rng h' a id n (setValues ns id l).
Proof.
  intros B h0 id a0 ns0 h a n ns vs numV l vs' h' y M Ha Hb Hr G Hh. destruct M.
  assert (E' : eff B h0 id a0 h' a).
  { subst h'. apply eff_put; auto. simpl. rewrite Ha. intros x Hx. split.
    - exact (p_base _ _ _ _ _ _ _ _ _ c_pend0 x Hx).
    - intros j Nj. exact (p_free _ _ _ _ _ _ _ _ _ c_pend0 x j Hx Nj). }
  split; [exact E'|]. split; [rewrite setValues_length; auto|]. split; [|split].
  - subst h'. rewrite sput_narr_length. exact c_cap0.
  - apply nth_error_ext. intro i. rewrite <- c_ns1. rewrite !nth_error_firstn.
    destruct (Nat.ltb_spec i id); [|reflexivity]. rewrite setValues_nth.
    destruct (Nat.eqb_spec i id); [lia|reflexivity].
  - intros i Hi. rewrite setValues_nth. destruct (Nat.eqb_spec i id) as [->|Ni].
    + subst h'. rewrite (sput_same _ _ _ _ _ G). destruct c_rec0 as (y' & nd & G' & Q & I1 & I2).
      rewrite G in G'. injection G' as <-. rewrite Q. simpl. f_equal. unfold snode. simpl.
      rewrite I1, I2. f_equal. rewrite <- Hr. apply sread_same. reflexivity.
    + subst h'. rewrite sput_other by congruence. apply c_rng0. lia.
Qed.

Lemma mid_finish : forall B h0 id a0 ns0 h a n ns vs numV l pos rest,
  mid B h0 id a0 ns0 h a n ns vs numV l ->
  sim B h0 id a0 ns0 (POk (setValues ns id l) pos rest)
    (match p_finish h a (a0, id) vs numV with Some h => MOk h a n pos rest | None => MPanic end).
Proof.
  intros B h0 id a0 ns0 h a n ns vs numV l pos rest M.
  destruct (m_ptr _ _ _ _ _ _ _ _ _ _ _ _ M) as (x & G & D).
  destruct (m_rec _ _ _ _ _ _ _ _ _ _ _ _ M) as (y & nd & Gy & Q & I1 & I2).
  pose proof (m_pend _ _ _ _ _ _ _ _ _ _ _ _ M) as P. destruct P as [Pi Pn Pl Pr Pb Pf].
  pose proof (m_la _ _ _ _ _ _ _ _ _ _ _ _ M) as La.
  pose proof (m_eff _ _ _ _ _ _ _ _ _ _ _ _ M) as E.
  apply mid_core in M as Mc. unfold p_finish. rewrite G. simpl snd.
  destruct (Nat.ltb_spec numV (slen (svals x))) as [L|L].
  - destruct D as [(D1 & D2 & D3)|D]; [|lia]. set (s := svals x) in *.
    set (h1 := sput h (a0, id) (setVals x (sfrom s numV))).
    set (h2 := wclear h1 (sfrom s numV)).
    assert (Ix : inb h s) by (eapply (proj1 (f_wf _ _ _ _ _ (e_frame _ _ _ _ _ _ E))); eauto).
    assert (Ox : own h a0 id = sarr s) by (unfold own; rewrite G; reflexivity).
    assert (E1 : eff B h0 id a0 h1 a).
    { apply eff_put0; auto.
      - simpl. unfold inb in *. simpl. destruct (sarr s); [|lia]. lia.
      - simpl. intros z Hz. rewrite Ox. exact Hz. }
    assert (E2 : eff B h0 id a0 h2 a).
    { unfold h2, wclear. destruct (sarr s) as [z|] eqn:Hz.
      - apply (eff_wset _ _ _ _ _ _ La E1 (sfrom s numV) _ z Hz).
        destruct (Pb z ltac:(congruence)) as [K|K]; [left; exists id; auto|right; exact K].
      - unfold wset. simpl. rewrite Hz. exact E1. }
    assert (Sg : forall j, j <> id -> sget h2 (a, j) = sget h (a, j)).
    { intros j Nj. unfold h2, wclear. rewrite wset_sget. unfold h1. rewrite sput_other by congruence. reflexivity. }
    assert (exists y', sget h2 (a, id) = Some y' /\ sinfo y' = sinfo y /\ sraw y' = sraw y) as (y' & Gy' & J1 & J2).
    { unfold h2, wclear. rewrite wset_sget. unfold h1. rewrite sput_sget.
      destruct (Nat.eqb_spec a0 a) as [->|Na]; simpl; [|exists y; auto].
      rewrite Nat.eqb_refl. simpl. rewrite G in Gy. injection Gy as ->.
      destruct (id <? length (narr h a)); [eexists; split; [reflexivity|auto]|exists y; auto]. }
    assert (M2 : core B h0 id a0 ns0 h2 a n ns (sto s numV) numV l).
    { destruct M. constructor; auto.
      - unfold h2, wclear. rewrite wset_narr. unfold h1. rewrite sput_narr_length. exact m_cap0.
      - eapply rng_same; eauto.
        + intros i Hi. apply Sg. lia.
        + intros i z Hi O. unfold h2, wclear. rewrite wset_varr_other; [reflexivity|]. simpl. intro K.
          exact (Pf z i ltac:(congruence) ltac:(lia) O).
      - exists y', nd. rewrite J1, J2. auto.
      - constructor; simpl; auto.
        + unfold h2, wclear. apply inb_wset. unfold inb in *. simpl. destruct (sarr s); [|simpl; lia].
          change (varrs h1) with (varrs h). change (varr h1) with (varr h). lia.
        + replace (sread h2 (sto s numV)) with l; [apply firstn_all2; lia|].
          unfold h2, wclear. rewrite sread_wset_past. change (sread h1 (sto s numV)) with (sread h (sto s numV)).
          rewrite <- Pr. unfold sread. simpl. rewrite D1. destruct (sarr s); [|rewrite firstn_nil; reflexivity].
          rewrite firstn_firstn, D2. f_equal. lia.
        + intros z Hz. apply Pb. congruence.
        + intros z j Hz Nj. rewrite (own_low h h2 a a j) by (apply Sg; exact Nj). apply Pf; congruence. }
    cbv beta zeta iota.
    assert (Lc : id < length (narr h2 a)) by (apply sget_narr in Gy'; apply Gy').
    apply Nat.ltb_lt in Lc. rewrite Lc, Gy'.
    destruct (c_pend _ _ _ _ _ _ _ _ _ _ _ _ M2) as [Pi2 Pn2 Pl2 Pr2 _ _].
    assert (Hr : sread h2 (sto s numV) = l).
    { rewrite <- Pr2. symmetry. apply firstn_all2. rewrite sread_length by exact Pi2. simpl. lia. }
    destruct (mid_store _ _ _ _ _ _ _ _ _ _ _ _ _ _ _ M2 eq_refl Pi2 Hr Gy' eq_refl) as (S1 & S2 & S3 & S4 & S5).
    simpl. split; [reflexivity|]. split; [reflexivity|]. rewrite S2. auto.
  - assert (Lc : id < length (narr h a)) by (apply sget_narr in Gy; apply Gy).
    apply Nat.ltb_lt in Lc.
    destruct (Nat.ltb_spec numV (slen vs)) as [L2|L2]; cbv beta zeta iota; rewrite Lc, Gy.
    + assert (Hi : inb h (sto vs numV)) by (unfold inb in *; simpl; destruct (sarr vs); lia).
      assert (Hr : sread h (sto vs numV) = l) by (rewrite sread_sto by lia; exact Pr).
      destruct (mid_store _ _ _ _ _ _ _ _ _ _ _ _ (sto vs numV) _ _ Mc eq_refl Hi Hr Gy eq_refl) as (S1 & S2 & S3 & S4 & S5).
      simpl. split; [reflexivity|]. split; [reflexivity|]. rewrite S2. auto.
    + assert (Hr : sread h vs = l).
      { rewrite <- Pr. symmetry. apply firstn_all2. rewrite sread_length by exact Pi. lia. }
      destruct (mid_store _ _ _ _ _ _ _ _ _ _ _ _ _ _ _ Mc eq_refl Pi Hr Gy eq_refl) as (S1 & S2 & S3 & S4 & S5).
      simpl. split; [reflexivity|]. split; [reflexivity|]. rewrite S2. auto.
Qed.

(* entering an array or object *)
Lemma mid_start : forall h a n ns h1 a1 x info, a < length (narrs h) -> wf h a -> n <= length (narr h a) ->
  length ns = n -> p_node h a n = (h1, a1) -> sget h1 (a1, n) = Some x ->
  let h2 := sput h1 (a1, n) (mkSlot info [] (svals x)) in
  eff (length (varrs h)) h n a h2 a1 /\
  mid (length (varrs h1)) h1 n a1 ns h2 a1 (S n) (ns ++ [mkNode info [] []]) (sfull h2 (svals x)) 0 [].
Proof.
  intros h a n ns h1 a1 x info La W Hn Hl P G h2.
  destruct (p_node_eff h a n h1 a1 La W Hn P) as (E1 & V1 & _).
  assert (Ox : own h1 a1 n = sarr (svals x)) by (unfold own; rewrite G; reflexivity).
  assert (Ib : inb h1 (svals x)) by (eapply (proj1 (e_wf _ _ _ _ _ _ E1)); eauto).
  assert (Dj : forall z j, sarr (svals x) = Some z -> j <> n -> own h1 a1 j <> Some z).
  { intros z j Hz Nj K. apply Nj. eapply (proj2 (e_wf _ _ _ _ _ _ E1)); eauto. rewrite Ox. exact Hz. }
  assert (Er : eff (length (varrs h1)) h1 n a1 h1 a1) by (apply eff_refl; auto; apply E1).
  assert (La1 : a1 < length (narrs h1)) by apply E1.
  assert (E2 : eff (length (varrs h)) h n a h2 a1).
  { unfold h2. apply eff_put; auto. simpl. intros z Hz. split.
    - rewrite <- Ox in Hz. apply (e_own _ _ _ _ _ _ E1 n z (le_n n) Hz).
    - intros j Nj. apply Dj; auto. }
  assert (G2 : sget h2 (a1, n) = Some (mkSlot info [] (svals x))) by (eapply sput_same; eauto).
  split; [exact E2|]. constructor; auto.
  - unfold h2. apply eff_put; auto. simpl. intros z Hz. split.
    + left. rewrite Ox. exact Hz.
    + intros j Nj. apply Dj; auto.
  - rewrite app_length. simpl. lia.
  - apply sget_narr in G2. lia.
  - rewrite firstn_app, Hl, Nat.sub_diag. rewrite firstn_all2 by lia. simpl. apply app_nil_r.
  - intros i Hi. lia.
  - eexists. eexists. split; [exact G2|]. split; [rewrite nth_error_app2 by lia; rewrite Hl, Nat.sub_diag; reflexivity|].
    auto.
  - constructor; auto; try (simpl; lia).
    + unfold inb, sfull, scap in *. simpl. change (varr h2) with (varr h1). change (varrs h2) with (varrs h1).
      destruct (sarr (svals x)); [lia|reflexivity].
    + simpl. intros z Hz. left. rewrite Ox. exact Hz.
    + simpl. intros z j Hz Nj. rewrite (own_low h1 h2 a1 a1 j).
      * apply Dj; auto.
      * unfold h2. rewrite sput_other by congruence. reflexivity.
  - eexists. split; [exact G2|]. left. simpl. split; [reflexivity|]. split; [reflexivity|].
    unfold scap. change (varr h2) with (varr h1). unfold inb in Ib. destruct (sarr (svals x)); lia.
Qed.

Definition value_sim f := forall h a n ns s pos, a < length (narrs h) -> wf h a -> n <= length (narr h a) ->
  length ns = n -> sim (length (varrs h)) h n a ns (parseValue f ns s pos) (m_value f h a n s pos).
Definition array_sim f := forall h a n ns s pos, a < length (narrs h) -> wf h a -> n <= length (narr h a) ->
  length ns = n -> sim (length (varrs h)) h n a ns (parseArray f ns s pos) (m_array f h a n s pos).
Definition object_sim f := forall h a n ns s pos, a < length (narrs h) -> wf h a -> n <= length (narr h a) ->
  length ns = n -> sim (length (varrs h)) h n a ns (parseObject f ns s pos) (m_object f h a n s pos).
Definition element_sim f := forall B h0 id a0 ns0 h a n ns vs numV l s pos,
  mid B h0 id a0 ns0 h a n ns vs numV l ->
  sim B h0 id a0 ns0 (arrayValue f ns id l s pos) (m_element f h a n (a0, id) vs numV s pos).
Definition key_sim f := forall B h0 id a0 ns0 h a n ns vs numV l s pos,
  mid B h0 id a0 ns0 h a n ns vs numV l ->
  sim B h0 id a0 ns0 (objectKey f ns id l s pos) (m_key f h a n (a0, id) vs numV s pos).

Lemma mid_err : forall B h0 id a0 ns0 h a n ns vs numV l e, mid B h0 id a0 ns0 h a n ns vs numV l ->
  sim B h0 id a0 ns0 (PErr e) (MErr h e).
Proof. intros. simpl. split; [reflexivity|]. destruct H. apply m_eff0. Qed.

Lemma mid_wf : forall B h0 id a0 ns0 h a n ns vs numV l, mid B h0 id a0 ns0 h a n ns vs numV l ->
  a < length (narrs h) /\ wf h a /\ n <= length (narr h a) /\ length ns = n.
Proof. intros. destruct H. split; [apply m_eff0|]. split; [apply m_eff0|]. auto. Qed.

Lemma mid_frame : forall B h0 id a0 ns0 h a n ns vs numV l h', mid B h0 id a0 ns0 h a n ns vs numV l ->
  frame (length (varrs h)) h n a h' -> frame B h0 id a0 h'.
Proof.
  intros. destruct H. eapply frame_trans; eauto.
  pose proof (f_B _ _ _ _ _ (e_frame _ _ _ _ _ _ m_eff0)). pose proof (f_vlen _ _ _ _ _ (e_frame _ _ _ _ _ _ m_eff0)).
  eapply frame_weaken; eauto; lia.
Qed.

Lemma sim_all : forall f, value_sim f /\ array_sim f /\ element_sim f /\ object_sim f /\ key_sim f.
Proof.
  induction f as [|f (IHv & IHa & IHe & IHo & IHk)].
  { split; [|split; [|split; [|split]]]; red; intros; exact Logic.I. }
  split; [|split; [|split; [|split]]].
  - intros h a n ns s pos La W Hn Hl. simpl. destruct (skipSpace s pos) as [s' pos'].
    destruct s' as [|c r]; [simpl; split; [reflexivity|apply frame_refl; auto]|].
    destruct (beqb c delimString).
    { destruct (readString r); [apply done_sim; auto|simpl; split; [reflexivity|apply frame_refl; auto]]. }
    destruct (beqb c delimBeginObject); [apply IHo; auto|].
    destruct (beqb c delimBeginArray); [apply IHa; auto|].
    destruct (beqb (tbl bytemapIsDigit c) x01 || beqb c x2d).
    { apply (done_sim h a n ns vNumber (firstn (readNumber (c :: r)) (c :: r))); auto. }
    destruct (beqb c x6e); [apply literal_sim; auto|].
    destruct (beqb c x66); [apply literal_sim; auto|].
    destruct (beqb c x74); [apply literal_sim; auto|].
    simpl; split; [reflexivity|apply frame_refl; auto].
  - intros h a n ns s pos La W Hn Hl. simpl.
    destruct (p_node h a n) as [h1 a1] eqn:P.
    destruct (p_node_eff h a n h1 a1 La W Hn P) as (E1 & V1 & x & G). rewrite G.
    destruct (mid_start h a n ns h1 a1 x vArray La W Hn Hl P G) as [E2 M].
    set (h2 := sput h1 (a1, n) (mkSlot vArray [] (svals x))) in *.
    assert (T : forall r mr, sim (length (varrs h1)) h1 n a1 ns r mr -> sim (length (varrs h)) h n a ns r mr).
    { intros r mr S. exact (sim_base _ _ _ _ _ _ _ r mr La Hl E1 S). }
    destruct (skipSpace s pos) as [s' pos']. destruct s' as [|c r].
    { apply T. eapply mid_err; eauto. }
    destruct (beqb c delimEndArray).
    + assert (G2 : sget h2 (a1, n) = Some (mkSlot vArray [] (svals x))) by (eapply sput_same; eauto).
      destruct (p_blank h2 (a1, n) vArray []) as [h3|] eqn:Bk.
      2:{ unfold p_blank in Bk. rewrite G2 in Bk. discriminate. }
      destruct (blank_eff _ _ _ _ _ _ _ _ _ _ _ La E2 (le_n n) G2 Bk) as (E3 & R & S & _).
      simpl. split; [reflexivity|]. split; [reflexivity|]. split; [exact E3|].
      split; [rewrite app_length; simpl; lia|]. split; [|split].
      * destruct (sget h3 (a1, n)) eqn:G3; [|discriminate]. apply sget_narr in G3. lia.
      * rewrite firstn_app, Hl, Nat.sub_diag. rewrite firstn_all2 by lia. simpl. apply app_nil_r.
      * intros i Hi. assert (i = n) by lia. subst i. rewrite R. rewrite nth_error_app2 by lia.
        rewrite Hl, Nat.sub_diag. reflexivity.
    + apply T. rewrite Hl. apply IHe. exact M.
  - intros B h0 id a0 ns0 h a n ns vs numV l s pos M. simpl.
    replace (lenN ns) with (N.of_nat n) by (destruct (mid_wf _ _ _ _ _ _ _ _ _ _ _ _ M) as (_ & _ & _ & <-); reflexivity).
    destruct (m_appendV h vs (mkV (N.of_nat n) []) numV) as [h1 vs1] eqn:A.
    apply (mid_append _ _ _ _ _ _ _ _ _ _ _ _ _ _ _ M) in A. clear M.
    destruct (mid_wf _ _ _ _ _ _ _ _ _ _ _ _ A) as (La & W & Hn & Hl).
    pose proof (IHv h1 a n ns s pos La W Hn Hl) as S.
    destruct (parseValue f ns s pos) as [ns2 p2 r2|e|], (m_value f h1 a n s pos) as [h2 a2 n2 p2' r2'|h2 e'| |];
      simpl in S; try contradiction; try exact Logic.I.
    2:{ destruct S as (-> & S). simpl. split; [reflexivity|]. eapply mid_frame; eauto. }
    destruct S as (-> & -> & E2 & Hn2 & Hc2 & F2 & R2).
    pose proof (mid_nested _ _ _ _ _ _ _ _ _ _ _ _ _ _ _ _ A E2 Hn2 Hc2 F2 R2) as M2.
    destruct (skipSpace r2 p2) as [s3 p3]. destruct s3 as [|c r].
    { eapply mid_err; eauto. }
    destruct (beqb c delimValueSeparator); [apply IHe; exact M2|].
    destruct (beqb c delimEndArray); [apply (mid_finish _ _ _ _ _ _ _ _ _ _ _ _ _ _ M2)|].
    eapply mid_err; eauto.
  - intros h a n ns s pos La W Hn Hl. simpl.
    destruct (p_node h a n) as [h1 a1] eqn:P.
    destruct (p_node_eff h a n h1 a1 La W Hn P) as (E1 & V1 & x & G). rewrite G.
    destruct (mid_start h a n ns h1 a1 x vObject La W Hn Hl P G) as [E2 M].
    set (h2 := sput h1 (a1, n) (mkSlot vObject [] (svals x))) in *.
    assert (T : forall r mr, sim (length (varrs h1)) h1 n a1 ns r mr -> sim (length (varrs h)) h n a ns r mr).
    { intros r mr S. exact (sim_base _ _ _ _ _ _ _ r mr La Hl E1 S). }
    destruct (skipSpace s pos) as [s' pos']. destruct s' as [|c r].
    { apply T. eapply mid_err; eauto. }
    destruct (beqb c delimEndObject).
    + assert (G2 : sget h2 (a1, n) = Some (mkSlot vObject [] (svals x))) by (eapply sput_same; eauto).
      destruct (p_blank h2 (a1, n) vObject []) as [h3|] eqn:Bk.
      2:{ unfold p_blank in Bk. rewrite G2 in Bk. discriminate. }
      destruct (blank_eff _ _ _ _ _ _ _ _ _ _ _ La E2 (le_n n) G2 Bk) as (E3 & R & S & _).
      simpl. split; [reflexivity|]. split; [reflexivity|]. split; [exact E3|].
      split; [rewrite app_length; simpl; lia|]. split; [|split].
      * destruct (sget h3 (a1, n)) eqn:G3; [|discriminate]. apply sget_narr in G3. lia.
      * rewrite firstn_app, Hl, Nat.sub_diag. rewrite firstn_all2 by lia. simpl. apply app_nil_r.
      * intros i Hi. assert (i = n) by lia. subst i. rewrite R. rewrite nth_error_app2 by lia.
        rewrite Hl, Nat.sub_diag. reflexivity.
    + destruct (beqb c delimString).
      * apply T. rewrite Hl. apply IHk. exact M.
      * apply T. eapply mid_err; eauto.
  - intros B h0 id a0 ns0 h a n ns vs numV l s pos M. cbn [objectKey m_key].
    destruct (scanQuote s 0) as [i|]; [|eapply mid_err; eauto].
    replace (lenN ns) with (N.of_nat n) by (destruct (mid_wf _ _ _ _ _ _ _ _ _ _ _ _ M) as (_ & _ & _ & <-); reflexivity).
    destruct (m_appendV h vs (mkV (N.of_nat n) (firstn i s)) numV) as [h1 vs1] eqn:A.
    apply (mid_append _ _ _ _ _ _ _ _ _ _ _ _ _ _ _ M) in A. clear M.
    destruct (mid_wf _ _ _ _ _ _ _ _ _ _ _ _ A) as (La & W & Hn & Hl).
    destruct (skipSpace (skipn (S i) s) (pos + 1 + N.of_nat i)) as [s1 p1].
    destruct s1 as [|c1 r1]; [eapply mid_err; eauto|].
    destruct (beqb c1 delimNameSeparator); [|eapply mid_err; eauto].
    pose proof (IHv h1 a n ns r1 (p1 + 1)%N La W Hn Hl) as S.
    destruct (parseValue f ns r1 (p1 + 1)) as [ns2 p2 r2|e|], (m_value f h1 a n r1 (p1 + 1)) as [h2 a2 n2 p2' r2'|h2 e'| |];
      simpl in S; try contradiction; try exact Logic.I.
    2:{ destruct S as (-> & S). simpl. split; [reflexivity|]. eapply mid_frame; eauto. }
    destruct S as (-> & -> & E2 & Hn2 & Hc2 & F2 & R2).
    pose proof (mid_nested _ _ _ _ _ _ _ _ _ _ _ _ _ _ _ _ A E2 Hn2 Hc2 F2 R2) as M2.
    destruct (skipSpace r2 p2) as [s3 p3]. destruct s3 as [|c r].
    { eapply mid_err; eauto. }
    destruct (beqb c delimValueSeparator).
    { destruct (skipSpace r (p3 + 1)) as [s4 p4]. destruct s4 as [|c4 r4]; [eapply mid_err; eauto|].
      destruct (beqb c4 delimString); [apply IHk; exact M2|eapply mid_err; eauto]. }
    destruct (beqb c delimEndObject); [apply (mid_finish _ _ _ _ _ _ _ _ _ _ _ _ _ _ M2)|].
    eapply mid_err; eauto.
Qed.
