(* ncopy on memory does what ncopy on lists does. *)
From Coq Require Import Lia.
From Verif Require Import Bytes Tables Types Parser Doc DocProofs Api Mem MemSpec MemHeap MemEff MemParse.

(* p points to a record standing for nd, out of reach of work on the records of a from n on *)
Definition src (h : heap) (a n : nat) (p : nat * nat) (nd : node) : Prop :=
  exists s, sget h p = Some s /\ snode h s = nd /\ inb h (svals s) /\ (fst p <> a \/ snd p < n) /\
    forall x j, sarr (svals s) = Some x -> n <= j -> own h a j <> Some x.

Lemma src_eff : forall h a n p nd h' a', src h a n p nd -> eff (length (varrs h)) h n a h' a' ->
  src h' a' n p nd.
Proof.
  intros h a n [b i] nd h' a' (s & G & Hs & Ib & Hp & Ho) E. simpl in Hp.
  pose proof (e_frame _ _ _ _ _ _ E) as F. destruct (sget_narr _ _ _ _ G) as [Lb Li].
  exists s. split; [|split; [|split; [|split]]].
  - rewrite <- G. destruct (Nat.eq_dec b a) as [->|Nb].
    + apply (f_low _ _ _ _ _ F). destruct Hp; [congruence|assumption].
    + apply sget_narr_eq. apply (f_narr _ _ _ _ _ F); assumption.
  - rewrite <- Hs. unfold snode. f_equal. apply sread_same. intros x Hx.
    apply (f_varr _ _ _ _ _ F); [unfold inb in Ib; rewrite Hx in Ib; apply Ib|].
    intros j Hj. apply Ho; assumption.
  - eapply inb_grow; eauto; apply F.
  - simpl. destruct (e_new _ _ _ _ _ _ E) as [->|Hn]; [exact Hp|left; lia].
  - intros x j Hx Hj K. apply (own_grow_split _ _ _ _ _ _ _ _ E) in K as [K|[_ K]].
    + exact (Ho x j Hx Hj K).
    + unfold inb in Ib. rewrite Hx in Ib. lia.
Qed.

Lemma src_more : forall h a n n' p nd, src h a n p nd -> n <= n' -> src h a n' p nd.
Proof.
  intros h a n n' p nd (s & G & Hs & Ib & Hp & Ho) L. exists s. split; [exact G|].
  split; [exact Hs|]. split; [exact Ib|]. split; [destruct Hp; [left; assumption|right; lia]|].
  intros. apply Ho; [assumption|lia].
Qed.

Lemma src_self : forall h a n ns i nd, wf h a -> rng h a 0 n ns -> n = length ns -> nth_error ns i = Some nd ->
  src h a n (a, i) nd.
Proof.
  intros h a n ns i nd W R Hn Hi.
  assert (Li : i < n) by (subst n; apply nth_error_Some; congruence).
  specialize (R i ltac:(lia)). rewrite Hi in R. destruct (sget h (a, i)) as [s|] eqn:G; [|discriminate].
  injection R as R. exists s. split; [exact G|]. split; [exact R|].
  split; [eapply (proj1 W); eauto|]. split; [right; exact Li|].
  intros x j Hx Hj K. assert (i = j); [|lia]. eapply (proj2 W); [|exact K]. unfold own. rewrite G. exact Hx.
Qed.

Definition otherOK (h : heap) (a n : nat) (other : option (nat * nat)) (o : option (list node)) : Prop :=
  match other, o with
  | Some (oa, on), Some ol => length ol = on /\ forall i nd, nth_error ol i = Some nd -> src h a n (oa, i) nd
  | None, None => True
  | _, _ => False
  end.
Lemma otherOK_eff : forall h a n other o h' a', otherOK h a n other o -> eff (length (varrs h)) h n a h' a' ->
  otherOK h' a' n other o.
Proof.
  intros h a n [[oa on]|] [ol|] h' a' H E; simpl in *; auto. destruct H as [H1 H2].
  split; [exact H1|]. intros. eapply src_eff; eauto.
Qed.
Lemma otherOK_more : forall h a n n' other o, otherOK h a n other o -> n <= n' -> otherOK h a n' other o.
Proof.
  intros h a n n' [[oa on]|] [ol|] H L; simpl in *; auto. destruct H as [H1 H2].
  split; [exact H1|]. intros. eapply src_more; eauto.
Qed.

Definition csim (h : heap) (a n : nat) (ns : list node) (r : option (list node * N))
  (mr : option (heap * nat * nat * N)) : Prop :=
  match r, mr with
  | None, None => True
  | Some (ns', id), Some (h', a', n', id') =>
      id' = id /\ eff (length (varrs h)) h n a h' a' /\ n' = length ns' /\ n' <= length (narr h' a') /\
      firstn n ns' = ns /\ rng h' a' 0 n' ns'
  | _, _ => False
  end.

Definition csims (rec : list node -> node -> option (list node * N))
  (mrec : heap -> nat -> nat -> nat * nat -> option (heap * nat * nat * N))
  (other : option (nat * nat)) (o : option (list node)) : Prop :=
  forall h a n ns p nd, a < length (narrs h) -> wf h a -> n <= length (narr h a) -> length ns = n ->
    rng h a 0 n ns -> src h a n p nd -> otherOK h a n other o -> csim h a n ns (rec ns nd) (mrec h a n p).

(* in the loop of ncopy; id is the copy's record, with base h0, a0 *)
Record cmid (B : nat) (h0 : heap) (id a0 : nat) (ns0 : list node) (h : heap) (a n : nat) (ns : list node)
  (vs : slice) (numV : nat) (l : list V) : Prop := {
  cm_la : a0 < length (narrs h0);
  cm_B : B = length (varrs h0);
  cm_eff : eff B h0 id a0 h a;
  cm_n : n = length ns;
  cm_id : id < n;
  cm_cap : n <= length (narr h a);
  cm_ns0 : firstn id ns = ns0;
  cm_rng : rng h a 0 n ns;
  cm_nil : own h a id = None;
  cm_pend : pend B h0 a0 h a id vs numV l
}.

Lemma cmid_append : forall B h0 id a0 ns0 h a n ns vs numV l v h' vs',
  cmid B h0 id a0 ns0 h a n ns vs numV l -> m_appendV h vs v numV = (h', vs') ->
  cmid B h0 id a0 ns0 h' a n ns vs' (S numV) (l ++ [v]).
Proof.
  intros B h0 id a0 ns0 h a n ns vs numV l v h' vs' M H. destruct M.
  destruct (appendV_pend _ _ _ _ _ _ _ _ _ _ _ _ _ cm_la0 cm_eff0 (le_n id) cm_pend0 H)
    as (E' & P' & N' & V' & Vx & C).
  assert (Sg : forall p, sget h' p = sget h p) by (intro; unfold sget, narr; rewrite N'; reflexivity).
  constructor; auto.
  - unfold narr. rewrite N'. exact cm_cap0.
  - eapply rng_same; eauto. intros i x Hi O. apply Vx.
    + eapply wf_own_lt; eauto. apply cm_eff0.
    + intro K. destruct (Nat.eq_dec i id) as [->|Ni]; [congruence|].
      exact (p_free _ _ _ _ _ _ _ _ _ cm_pend0 x i K Ni O).
  - rewrite (own_low h h' a a) by apply Sg. exact cm_nil0.
Qed.

Lemma cmid_nested : forall B h0 id a0 ns0 h a n ns vs numV l h' a' n' ns',
  cmid B h0 id a0 ns0 h a n ns vs numV l ->
  eff (length (varrs h)) h n a h' a' -> n' = length ns' -> n' <= length (narr h' a') ->
  firstn n ns' = ns -> rng h' a' 0 n' ns' ->
  cmid B h0 id a0 ns0 h' a' n' ns' vs numV l.
Proof.
  intros B h0 id a0 ns0 h a n ns vs numV l h' a' n' ns' M E Hn' Hc F R. destruct M.
  assert (HB : B <= length (varrs h)).
  { pose proof (f_B _ _ _ _ _ (e_frame _ _ _ _ _ _ cm_eff0)). pose proof (f_vlen _ _ _ _ _ (e_frame _ _ _ _ _ _ cm_eff0)). lia. }
  assert (Ln : n <= n').
  { subst n'. rewrite cm_n0, <- F. rewrite firstn_length. lia. }
  constructor; auto; try lia.
  - eapply eff_trans; eauto. eapply eff_weaken; eauto; lia.
  - rewrite <- cm_ns1. rewrite <- F. rewrite firstn_firstn. f_equal. lia.
  - rewrite (own_low h h' a a'); [exact cm_nil0|]. apply (e_low _ _ _ _ _ _ E). exact cm_id0.
  - eapply pend_eff; eauto.
Qed.

Lemma loop_sim : forall rec mrec other o, csims rec mrec other o ->
  forall p nd vs i k B h0 id a0 ns0 h a n ns values numV acc,
  cmid B h0 id a0 ns0 h a n ns values numV acc -> src h0 a0 id p nd -> otherOK h0 a0 id other o ->
  skipn i (nvalues nd) = vs -> k = length vs ->
  match copyValues rec o vs ns acc, m_copyValues mrec other p k i h a n values numV with
  | None, None => True
  | Some (ns', acc'), Some (h', a', n', values', numV') => cmid B h0 id a0 ns0 h' a' n' ns' values' numV' acc'
  | _, _ => False
  end.
Proof.
  intros rec mrec other o IH p nd. induction vs as [|v r IHr];
    intros i k B h0 id a0 ns0 h a n ns values numV acc M Sp Oo Hv Hk; simpl in Hk; subst k; simpl.
  { exact M. }
  assert (EB : eff (length (varrs h0)) h0 id a0 h a) by (destruct M; subst B; assumption).
  assert (Sp' : src h a id p nd) by (eapply src_eff; eauto).
  assert (Oo' : otherOK h a n other o).
  { eapply otherOK_more; [eapply otherOK_eff; eauto|]. destruct M. lia. }
  destruct Sp' as (s & G & Hs & Ib & _ & _). rewrite G.
  assert (Hr : sread h (svals s) = nvalues nd) by (rewrite <- Hs; reflexivity). rewrite Hr.
  assert (Hi : nth_error (nvalues nd) i = Some v).
  { replace i with (i + 0) by lia. rewrite <- nth_error_skipn, Hv. reflexivity. }
  rewrite Hi.
  assert (Hv' : skipn (S i) (nvalues nd) = r).
  { apply nth_error_ext. intro j. rewrite nth_error_skipn.
    replace (S i + j) with (i + S j) by lia. rewrite <- nth_error_skipn, Hv. reflexivity. }
  set (ol := match o with Some o0 => o0 | None => ns end).
  set (oo := match other with Some o0 => o0 | None => (a, n) end).
  assert (OS : snd oo = length ol /\ forall j c, nth_error ol j = Some c -> src h a n (fst oo, j) c).
  { unfold ol, oo. destruct other as [[oa on]|], o as [ol'|]; simpl in Oo'; try contradiction.
    - simpl. destruct Oo' as [O1 O2]. auto.
    - simpl. destruct M. split; [exact cm_n0|]. intros j c Hj. eapply src_self; eauto. apply cm_eff0. }
  destruct oo as [oa on]. simpl in OS. destruct OS as [-> OS].
  unfold getNode, lenN. destruct (N.ltb_spec (vid v) (N.of_nat (length ol))) as [L|L].
  2:{ eapply IHr; eauto. }
  destruct (nth_error ol (N.to_nat (vid v))) as [c|] eqn:Hc.
  2:{ apply nth_error_None in Hc. lia. }
  assert (Wf : a < length (narrs h) /\ wf h a /\ n <= length (narr h a) /\ length ns = n /\ rng h a 0 n ns).
  { destruct M. split; [apply cm_eff0|]. split; [apply cm_eff0|]. auto. }
  destruct Wf as (W1 & W2 & W3 & W4 & W5).
  pose proof (IH h a n ns (oa, N.to_nat (vid v)) c W1 W2 W3 W4 W5 (OS _ _ Hc) Oo') as C.
  unfold csim in C. destruct (rec ns c) as [[ns' cid]|], (mrec h a n (oa, N.to_nat (vid v))) as [[[[h' a'] n'] cid']|];
    try contradiction; [|exact Logic.I].
  destruct C as (-> & E & Hn' & Hc' & F & R).
  pose proof (cmid_nested _ _ _ _ _ _ _ _ _ _ _ _ _ _ _ _ M E Hn' Hc' F R) as M2.
  destruct (m_appendV h' values (mkV cid (vkey v)) numV) as [h2 vs2] eqn:A.
  pose proof (cmid_append _ _ _ _ _ _ _ _ _ _ _ _ _ _ _ M2 A) as M3.
  eapply IHr; eauto.
Qed.

Lemma d_grow_eff : forall pol h a n h1 a1, a < length (narrs h) -> wf h a -> n <= length (narr h a) ->
  d_grow pol h a n = (h1, a1) ->
  eff (length (varrs h)) h n a h1 a1 /\ varrs h1 = varrs h /\ exists x, sget h1 (a1, n) = Some x.
Proof.
  intros pol h a n h1 a1 La W Hn H. unfold d_grow in H.
  destruct (Nat.ltb_spec n (length (narr h a))) as [L|L].
  - injection H as <- <-. split; [apply eff_refl; auto|]. split; [reflexivity|].
    unfold sget. simpl. destruct (nth_error (narr h a) n) eqn:G; [eauto|].
    apply nth_error_None in G. lia.
  - change ([zeroSlot] ++ repeat zeroSlot (polN pol (length (narrs h))))
      with (repeat zeroSlot (S (polN pol (length (narrs h))))) in H.
    injection H as <- <-.
    split; [apply (grow_eff _ h n a (S (polN pol (length (narrs h))))); auto|].
    split; [reflexivity|]. unfold sget. simpl fst. simpl snd.
    destruct (grow_facts h a (S (polN pol (length (narrs h)))) _ La eq_refl) as [_ New]. simpl repeat in New. rewrite New.
    exists zeroSlot. rewrite nth_error_app2 by lia. replace (n - length (narr h a)) with 0 by lia.
    reflexivity.
Qed.

Lemma ncopy_sim : forall pol other o f, csims (ncopy f o) (m_ncopy pol f other) other o.
Proof.
  intros pol other o. induction f as [|f IH]; intros h a n ns p nd La W Hn Hl R Sp Oo; [exact Logic.I|].
  cbn [ncopy m_ncopy]. destruct (d_grow pol h a n) as [h1 a1] eqn:Gr.
  destruct (d_grow_eff _ _ _ _ _ _ La W Hn Gr) as (E1 & V1 & cp & G).
  rewrite G. pose proof (src_eff _ _ _ _ _ _ _ Sp E1) as Sp1. pose proof Sp1 as Sp1'.
  destruct Sp1' as (s & Gs & Hs & Is & Ps & Os). rewrite Gs.
  set (h2 := sput h1 (a1, n) (mkSlot (sinfo s) (sraw s) nilS)).
  assert (Ox : own h1 a1 n = sarr (svals cp)) by (unfold own; rewrite G; reflexivity).
  assert (Icp : inb h1 (svals cp)) by (eapply (proj1 (e_wf _ _ _ _ _ _ E1)); eauto).
  assert (G2 : sget h2 (a1, n) = Some (mkSlot (sinfo s) (sraw s) nilS)) by (eapply sput_same; eauto).
  assert (E2 : eff (length (varrs h1)) h1 n a1 h2 a1).
  { unfold h2. apply eff_put; auto; try apply E1.
    - apply eff_refl; auto; apply E1.
    - reflexivity.
    - simpl. discriminate. }
  assert (Wd : forall j, j <> n -> sget h2 (a1, j) = sget h1 (a1, j)).
  { intros j Nj. unfold h2. apply sput_other. congruence. }
  assert (Hsn : snode h2 (mkSlot (sinfo s) (sraw s) nilS) = mkNode (ninfo nd) (nraw nd) []).
  { rewrite <- Hs. reflexivity. }
  assert (M : cmid (length (varrs h1)) h1 n a1 ns h2 a1 (S n) (ns ++ [mkNode (ninfo nd) (nraw nd) []])
                (sfull h1 (svals cp)) 0 []).
  { constructor; auto.
    - apply E1.
    - rewrite app_length. simpl. lia.
    - apply sget_narr in G2. lia.
    - rewrite firstn_app, Hl, Nat.sub_diag. rewrite firstn_all2 by lia. simpl. apply app_nil_r.
    - intros i Hi. destruct (Nat.eq_dec i n) as [->|Ni].
      + rewrite G2. simpl. rewrite Hsn. rewrite nth_error_app2 by lia. rewrite Hl, Nat.sub_diag. reflexivity.
      + rewrite nth_error_app1 by lia. apply (rng_eff h1 n a1 h2 a1 0 ns); [exact E2|apply E1| |lia].
        apply (rng_eff h n a h1 a1 0 ns); auto.
    - unfold own. rewrite G2. reflexivity.
    - constructor; auto; try (simpl; lia).
      + unfold inb, sfull, scap in *. simpl. change (varr h2) with (varr h1). change (varrs h2) with (varrs h1).
        destruct (sarr (svals cp)); [lia|reflexivity].
      + simpl. intros z Hz. left. rewrite Ox. exact Hz.
      + simpl. intros z j Hz Nj K. rewrite (own_low h1 h2 a1 a1 j) in K by (apply Wd; exact Nj).
        apply Nj. eapply (proj2 (e_wf _ _ _ _ _ _ E1)); eauto. rewrite Ox. exact Hz. }
  pose proof (otherOK_eff _ _ _ _ _ _ _ Oo E1) as Oo1.
  assert (Lk : slen (svals s) = length (nvalues nd)).
  { rewrite <- Hs. simpl. symmetry. apply sread_length. exact Is. }
  change (sfull h1 (svals cp)) with (sfull h2 (svals cp)) in M.
  change (sfull h1 (svals cp)) with (sfull h2 (svals cp)).
  pose proof (loop_sim (ncopy f o) (m_ncopy pol f other) other o IH p nd (nvalues nd) 0 (slen (svals s))
    _ _ _ _ _ _ _ _ _ _ _ _ M Sp1 Oo1 eq_refl Lk) as L.
  destruct (copyValues (ncopy f o) o (nvalues nd) (ns ++ [mkNode (ninfo nd) (nraw nd) []]) []) as [[ns3 vs3]|],
    (m_copyValues (m_ncopy pol f other) other p (slen (svals s)) 0 h2 a1 (S n) (sfull h2 (svals cp)) 0)
      as [[[[[h3 a3] n3] values3] numV3]|]; try contradiction; [|exact Logic.I].
  destruct L.
  assert (exists y, sget h3 (a3, n) = Some y) as [y Gy].
  { unfold sget. simpl. destruct (nth_error (narr h3 a3) n) eqn:Q; [eauto|]. apply nth_error_None in Q. lia. }
  rewrite Gy. destruct cm_pend0 as [Pi Pn Pl Pr Pb Pf].
  assert (HV : length (varrs h1) = length (varrs h)) by (rewrite V1; reflexivity).
  unfold csim. split; [unfold lenN; rewrite Hl; reflexivity|].
  assert (Hid : N.to_nat (lenN ns) = n) by (unfold lenN; lia). rewrite Hid.
  assert (E3 : eff (length (varrs h1)) h1 n a1 (sput h3 (a3, n) (setVals y (sto values3 numV3))) a3).
  { apply eff_put; auto. simpl. unfold inb in *. simpl. destruct (sarr values3); lia. }
  split; [|split; [|split; [|split]]].
  - eapply eff_trans; eauto. rewrite <- HV. exact E3.
  - rewrite setValues_length. exact cm_n0.
  - rewrite sput_narr_length. exact cm_cap0.
  - apply nth_error_ext. intro i. rewrite <- cm_ns1. rewrite !nth_error_firstn.
    destruct (Nat.ltb_spec i n); [|reflexivity]. rewrite setValues_nth.
    destruct (Nat.eqb_spec i n); [lia|reflexivity].
  - intros i Hi. rewrite setValues_nth. destruct (Nat.eqb_spec i n) as [->|Ni].
    + rewrite (sput_same _ _ _ _ _ Gy). rewrite <- (cm_rng0 n Hi), Gy. simpl. f_equal. unfold snode. simpl.
      f_equal. rewrite <- Pr. rewrite <- sread_sto by exact Pn. apply sread_same. reflexivity.
    + rewrite sput_other by congruence. exact (cm_rng0 i Hi).
Qed.
