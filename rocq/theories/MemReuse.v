(* A parse into nodes that are large enough allocates nothing. *)
From Verif Require Import Bytes Tables Types Parser Doc LexProofs DocProofs CopyProofs Mem MemHeap MemCost.

Lemma sget_sput h a i x a' j : sget (sput h (a, i) x) (a', j) =
  if (a =? a') && (i =? j) && (i <? length (narr h a)) then Some x else sget h (a', j).
Proof.
  unfold sget, sput, narr. cbn [fst snd narrs]. rewrite nth_replaceNth.
  destruct (Nat.eqb_spec a a') as [->|Na]; [|reflexivity]. cbn [andb].
  destruct (Nat.ltb_spec a' (length (narrs h))) as [Lt|Ge].
  - destruct (Nat.eqb_spec i j) as [->|Nj].
    + destruct (Nat.ltb_spec j (length (nth a' (narrs h) []))) as [L|G]; [apply nth_error_replaceNth_same; auto|].
      rewrite replaceNth_out by auto. reflexivity.
    + cbn [andb]. apply nth_error_replaceNth_other. exact Nj.
  - rewrite nth_overflow by auto. destruct ((i =? j) && (i <? length [])) eqn:E; [|reflexivity].
    apply andb_true_iff in E as [_ E]. discriminate E.
Qed.
Lemma sget_sput_other h p x a' j : j <> snd p -> sget (sput h p x) (a', j) = sget h (a', j).
Proof.
  destruct p as [a i]. intro N. rewrite sget_sput. destruct (Nat.eqb_spec i j); [simpl in N; congruence|].
  rewrite andb_false_r. reflexivity.
Qed.
Lemma sget_sput_same h a i x : i < length (narr h a) -> sget (sput h (a, i) x) (a, i) = Some x.
Proof. intro L. rewrite sget_sput, !Nat.eqb_refl. apply Nat.ltb_lt in L. rewrite L. reflexivity. Qed.
Lemma sget_wset h s l p : sget (wset h s l) p = sget h p.
Proof. unfold sget, narr. rewrite wset_n. reflexivity. Qed.
Lemma sget_lt h a i x : sget h (a, i) = Some x -> i < length (narr h a).
Proof. intro E. apply nth_error_Some. unfold sget in E. cbn [fst snd] in E. congruence. Qed.

Lemma scap_sized h h' s : sized h h' -> scap h' s = scap h s.
Proof.
  intros [E _]. unfold scap. destruct (sarr s) as [x|]; auto. f_equal. unfold varr.
  rewrite <- !(map_nth (@length V)). unfold vshape in E. rewrite E. reflexivity.
Qed.

Lemma p_node_keep h a n h' a' : n <= length (narr h a) -> p_node h a n = (h', a') ->
  n < length (narr h' a') /\ (forall i, i < n -> sget h' (a', i) = sget h (a, i)) /\
  (n < length (narr h a) -> h' = h /\ a' = a).
Proof.
  intros L E. pose proof (grown_node _ _ _ _ _ E) as (_ & _ & K). revert E.
  unfold p_node. destruct (Nat.ltb_spec n (length (narr h a))) as [Lt|Ge]; injection 1 as <- <-; [auto|].
  split; [|split; [|auto]].
  - unfold narr at 1. cbn [narrs]. rewrite nth_middle, app_length, repeat_length. lia.
  - intros i Hi. unfold sget, narr at 1. cbn [narrs fst snd]. rewrite nth_middle. rewrite nth_error_app1 by lia. reflexivity.
Qed.

Lemma p_blank_keep h a n info raw h' : p_blank h (a, n) info raw = Some h' ->
  sized h h' /\ n < length (narr h' a) /\ (forall i, i <> n -> sget h' (a, i) = sget h (a, i)) /\
  (forall x y, sget h (a, n) = Some x -> sget h' (a, n) = Some y -> scap h (svals x) <= scap h' (svals y)).
Proof.
  intro E. pose proof (sized_blank _ _ _ _ _ E) as S. unfold p_blank in E.
  destruct (sget h (a, n)) as [x|] eqn:Ex0; [|discriminate]. injection E as <-.
  pose proof (sget_lt _ _ _ _ Ex0) as Ex. split; [exact S|]. split; [rewrite (sized_len _ _ _ S); exact Ex|]. split.
  - intros i Hi. rewrite sget_sput_other by exact Hi. apply sget_wset.
  - intros x' y Ex'. rewrite (scap_sized _ _ _ S). rewrite sget_sput_same; [|unfold narr, wclear; rewrite wset_n; exact Ex].
    injection 1 as <-. injection Ex' as <-. unfold scap, sto. cbn [svals sarr soff]. lia.
Qed.

Lemma p_finish_keep h a p vs c h' : p_finish h a p vs c = Some h' -> snd p < length (narr h a) -> c <= slen vs ->
  sized h h' /\ (forall j, j <> snd p -> sget h' (a, j) = sget h (a, j)) /\
  exists y, sget h' (a, snd p) = Some y /\ slen (svals y) = c /\
    (fst p = a -> (forall x, sget h p = Some x -> scap h (svals x) <= scap h vs) ->
     forall x, sget h p = Some x -> scap h (svals x) <= scap h (svals y)).
Proof.
  intros E L Lc. pose proof (sized_finish _ _ _ _ _ _ E) as S. split; [exact S|].
  unfold p_finish in E. destruct (sget h p) as [x|] eqn:Ex; [|discriminate].
  set (Q := if c <? slen (svals x) then _ else _) in E. destruct Q as [h1 vs1] eqn:EQ.
  assert (K : sized h h1 /\ (forall j, j <> snd p -> sget h1 (a, j) = sget h (a, j)) /\ slen vs1 = c /\
    (scap h (svals x) <= scap h vs -> scap h (svals x) <= scap h vs1)).
  { unfold Q in EQ. destruct (Nat.ltb_spec c (slen (svals x))).
    - injection EQ as <- <-. split; [eapply sized_trans; [apply sized_sput|apply sized_wset]|]. split; [|split; [reflexivity|unfold scap, sto; cbn [sarr soff]; lia]].
      intros j Hj. unfold wclear. rewrite sget_wset. apply sget_sput_other. exact Hj.
    - destruct (Nat.ltb_spec c (slen vs)); injection EQ as <- <-; (split; [apply sized_refl|]); (split; [reflexivity|]); (split; [simpl; lia|]); unfold scap, sto; cbn [sarr soff]; lia. }
  destruct K as (S1 & K & Ec & Cap). rewrite (sized_len _ _ _ S1) in E.
  destruct (Nat.ltb_spec (snd p) (length (narr h a))); [|lia].
  destruct (sget h1 (a, snd p)) as [y|] eqn:Ey; [|discriminate]. injection E as <-. split.
  - intros j Hj. rewrite sget_sput_other by exact Hj. apply K. exact Hj.
  - eexists. split; [apply sget_sput_same; eapply sget_lt; exact Ey|]. split; [exact Ec|].
    intros _ Cv x' E'. injection E' as <-. cbn [setVals svals]. apply Cap. apply Cv. reflexivity.
Qed.

Lemma appendV_keep h s v i h' s' : m_appendV h s v i = (h', s') -> i <= slen s ->
  narrs h' = narrs h /\ i < slen s' /\ (i < slen s -> sized h h' /\ s' = s).
Proof.
  unfold m_appendV. intros E L. destruct (Nat.ltb_spec i (slen s)) as [Lt|Ge].
  - injection E as <- <-. split; [apply wset_n|]. split; [exact Lt|]. intros _. split; [apply sized_wset|reflexivity].
  - unfold valloc in E. cbn [slen] in E. split; [|split; [|lia]].
    + match type of E with (if ?b then _ else _, _) = _ => destruct b end; injection E as <- _; [unfold wput; rewrite wset_n; reflexivity|reflexivity].
    + injection E as _ <-. cbn [slen]. lia.
Qed.
Lemma sget_narrs h h' p : narrs h' = narrs h -> sget h' p = sget h p.
Proof. intro E. unfold sget, narr. rewrite E. reflexivity. Qed.

(* ---- the parser ---- *)

(* Every node that is filled has room for the values it ends up with. *)
Definition roomy (h : heap) (a n : nat) (h' : heap) (a' n' : nat) : Prop :=
  n' <= length (narr h a) /\
  forall i x y, n <= i < n' -> sget h (a, i) = Some x -> sget h' (a', i) = Some y -> slen (svals y) <= scap h (svals x).
Definition still (h : heap) (a : nat) (h' : heap) (a' n' : nat) : Prop :=
  a' = a /\ sized h h' /\ (forall i, n' <= i -> sget h' (a, i) = sget h (a, i)) /\
  forall i x y, sget h (a, i) = Some x -> sget h' (a, i) = Some y -> scap h (svals x) <= scap h (svals y).

Definition good (h : heap) (a n : nat) (r : mpres) : Prop :=
  match r with
  | MOk h' a' n' _ _ =>
      n < n' /\ n' <= length (narr h' a') /\ (forall i, i < n -> sget h' (a', i) = sget h (a, i)) /\
      (roomy h a n h' a' n' -> still h a h' a' n')
  | _ => True
  end.
Definition goodE (h : heap) (a n : nat) (p : nat * nat) (vs : slice) (i : nat) (r : mpres) : Prop :=
  match r with
  | MOk h' a' n' _ _ =>
      n < n' /\ n' <= length (narr h' a') /\ (forall j, j < n -> j <> snd p -> sget h' (a', j) = sget h (a, j)) /\
      (exists y, sget h' (a', snd p) = Some y /\ S i <= slen (svals y)) /\
      (roomy h a n h' a' n' -> (forall y, sget h' (a', snd p) = Some y -> slen (svals y) <= slen vs) ->
       fst p = a -> (forall x, sget h p = Some x -> scap h (svals x) <= scap h vs) -> still h a h' a' n')
  | _ => True
  end.

(* all slots but one are the same *)
Lemma still_one h a h' n : sized h h' -> (forall i, i <> n -> sget h' (a, i) = sget h (a, i)) ->
  (forall x y, sget h (a, n) = Some x -> sget h' (a, n) = Some y -> scap h (svals x) <= scap h (svals y)) ->
  forall m, n < m -> still h a h' a m.
Proof.
  intros S K C m Lm. split; [reflexivity|]. split; [exact S|]. split; [intros i Hi; apply K; lia|].
  intros i x y Ex Ey. destruct (Nat.eq_dec i n) as [->|Ni]; [eauto|]. rewrite K in Ey by exact Ni. rewrite Ex in Ey. injection Ey as <-. lia.
Qed.
Lemma still_trans h a h1 n1 h2 n2 : still h a h1 a n1 -> still h1 a h2 a n2 -> n1 <= n2 -> still h a h2 a n2.
Proof.
  intros (_ & S1 & K1 & C1) (_ & S2 & K2 & C2) L. split; [reflexivity|]. split; [eapply sized_trans; eauto|].
  split; [intros i Hi; rewrite K2, K1 by lia; reflexivity|]. intros i x z Ex Ez.
  assert (Y : exists y, sget h1 (a, i) = Some y).
  { apply sget_lt in Ex. rewrite <- (sized_len _ _ a S1) in Ex. unfold sget. cbn [fst snd].
    destruct (nth_error (narr h1 a) i) eqn:E; [eauto|]. apply nth_error_None in E. lia. }
  destruct Y as (y & Ey). pose proof (C1 _ _ _ Ex Ey). pose proof (C2 _ _ _ Ey Ez) as C. rewrite !(scap_sized _ _ _ S1) in C. lia.
Qed.

Lemma done_good h a n info raw pos rest : n <= length (narr h a) -> good h a n (m_done h a n info raw pos rest).
Proof.
  intro L. unfold m_done. destruct (p_node h a n) as [h1 a1] eqn:En. apply p_node_keep in En as (L1 & K1 & R1); [|exact L].
  destruct (p_blank h1 (a1, n) info raw) as [h2|] eqn:Eb; [|exact I]. apply p_blank_keep in Eb as (S2 & L2 & K2 & C2).
  unfold good. split; [lia|]. split; [lia|]. split; [intros i Hi; rewrite K2 by lia; auto|].
  intros (R & _). destruct (R1 R) as [-> ->]. apply still_one with (n := n); auto.
  intros x y Ex Ey. rewrite <- (scap_sized _ _ (svals y) S2). eauto.
Qed.

Lemma literal_good h a n info typ lit s pos : n <= length (narr h a) -> good h a n (m_literal h a n info typ lit s pos).
Proof.
  intro L. unfold m_literal. destruct (_ <=? _); [|exact I]. destruct (bseqb _ _); [apply done_good; exact L|exact I].
Qed.

(* the opening of an array or object, up to its first element *)
Lemma open_good h a n h1 a1 x info r : n <= length (narr h a) -> p_node h a n = (h1, a1) -> sget h1 (a1, n) = Some x ->
  let h2 := sput h1 (a1, n) (mkSlot info [] (svals x)) in
  S n <= length (narr h2 a1) /\
  (goodE h2 a1 (S n) (a1, n) (sfull h2 (svals x)) 0 r -> good h a n r).
Proof.
  intros L En Ex. apply p_node_keep in En as (L1 & K1 & R1); [|exact L]. cbv zeta.
  pose proof (sized_sput h1 (a1, n) (mkSlot info [] (svals x))) as S2. set (h2 := sput _ _ _) in *.
  split; [rewrite (sized_len _ _ _ S2); exact L1|].
  destruct r as [h3 a3 n3 pos3 s3| | |]; auto. unfold good, goodE. cbn [fst snd]. intros (A & B & C & (y & Ey & _) & D).
  assert (K2 : forall j, j <> n -> sget h2 (a1, j) = sget h1 (a1, j)) by (intros j Hj; apply sget_sput_other; exact Hj).
  assert (Hn : sget h2 (a1, n) = Some (mkSlot info [] (svals x))) by (apply sget_sput_same; exact L1).
  split; [lia|]. split; [exact B|]. split; [intros i Hi; rewrite C, K2 by lia; auto|].
  intros (R & Ro). destruct (R1 ltac:(lia)) as [-> ->].
  assert (St : still h a h2 a (S n)).
  { apply still_one with (n := n); auto. intros u w Eu Ew. rewrite Hn in Ew. injection Ew as <-. cbn [svals].
    rewrite Ex in Eu. injection Eu as <-. lia. }
  assert (St3 : still h2 a h3 a3 n3).
  { apply D; auto.
    - split; [rewrite (sized_len _ _ _ S2); exact R|]. intros i u w Hi Eu Ew. rewrite K2 in Eu by lia.
      rewrite (scap_sized _ _ _ S2). apply (Ro i); auto. lia.
    - intros y' Ey'. unfold sfull, sto. cbn [slen]. rewrite (scap_sized _ _ _ S2). apply (Ro n); auto. lia.
    - intros u Eu. rewrite Hn in Eu. injection Eu as <-. cbn [svals]. unfold sfull, sto, scap. cbn [sarr soff]. lia. }
  pose proof St3 as (-> & _). eapply still_trans; [exact St|exact St3|lia].
Qed.

(* one element: the child, then what follows *)
Lemma child_good h a n p vs i h1 vs1 h2 a2 n2 pos2 s2 r : snd p < n -> narrs h1 = narrs h ->
  (i < slen vs -> sized h h1 /\ vs1 = vs) ->
  good h1 a n (MOk h2 a2 n2 pos2 s2) ->
  match r with
  | MOk h' a' n' _ _ =>
      n2 <= n' /\ n' <= length (narr h' a') /\ (forall j, j < n2 -> j <> snd p -> sget h' (a', j) = sget h2 (a2, j)) /\
      (exists y, sget h' (a', snd p) = Some y /\ S i <= slen (svals y)) /\
      (roomy h2 a2 n2 h' a' n' -> (forall y, sget h' (a', snd p) = Some y -> slen (svals y) <= slen vs1) ->
       fst p = a2 -> (forall x, sget h2 p = Some x -> scap h2 (svals x) <= scap h2 vs1) -> still h2 a2 h' a' n')
  | _ => True
  end -> goodE h a n p vs i r.
Proof.
  intros Lid N1 V1 G. destruct r as [h' a' n' pos' s'| | |]; auto. unfold good, goodE in *.
  destruct G as (A & B & C & D). intros (A' & B' & C' & (y & Ey & Ly) & D').
  split; [lia|]. split; [exact B'|]. split.
  { intros j Hj Nj. rewrite C' by lia. rewrite C by lia. apply sget_narrs. exact N1. }
  split; [eauto|]. intros (R & Ro) Rv Ep Cp.
  destruct (V1 ltac:(specialize (Rv _ Ey); lia)) as [S1 ->].
  assert (St2 : still h1 a h2 a2 n2).
  { apply D. split; [rewrite (sized_len _ _ _ S1); lia|]. intros j u w Hj Eu Ew. rewrite (scap_sized _ _ _ S1).
    rewrite (sget_narrs _ _ _ N1) in Eu. eapply Ro; [|exact Eu|]; [lia|]. rewrite C' by lia. exact Ew. }
  pose proof St2 as (-> & S2 & Lat & _).
  assert (St3 : still h2 a h' a' n').
  { apply D'; auto.
    - split; [rewrite (sized_len _ _ _ S2), (sized_len _ _ _ S1); lia|]. intros j u w Hj Eu Ew.
      rewrite (scap_sized _ _ _ S2), (scap_sized _ _ _ S1). rewrite Lat in Eu by lia. rewrite (sget_narrs _ _ _ N1) in Eu.
      eapply Ro; [|exact Eu|exact Ew]. lia.
    - intros x Ex. rewrite !(scap_sized _ _ _ S2), !(scap_sized _ _ _ S1). apply Cp. rewrite <- Ex. destruct p as [pa id]. simpl in Ep, Lid. subst pa.
      rewrite C by exact Lid. symmetry. apply sget_narrs. exact N1. }
  pose proof St3 as (-> & _).
  assert (St1 : still h a h1 a n2).
  { split; [reflexivity|]. split; [exact S1|]. split; [intros j _; apply sget_narrs; exact N1|].
    intros j x z Ex Ez. rewrite (sget_narrs _ _ _ N1), Ex in Ez. injection Ez as <-. lia. }
  eapply still_trans; [eapply still_trans; [exact St1|exact St2|lia]|exact St3|lia].
Qed.

Lemma finish_good h a n p vs c i pos rest : snd p < n -> n <= length (narr h a) -> c <= slen vs -> S i = c ->
  match (match p_finish h a p vs c with Some h => MOk h a n pos rest | None => MPanic end) with
  | MOk h' a' n' _ _ =>
      n <= n' /\ n' <= length (narr h' a') /\ (forall j, j < n -> j <> snd p -> sget h' (a', j) = sget h (a, j)) /\
      (exists y, sget h' (a', snd p) = Some y /\ S i <= slen (svals y)) /\
      (roomy h a n h' a' n' -> (forall y, sget h' (a', snd p) = Some y -> slen (svals y) <= slen vs) ->
       fst p = a -> (forall x, sget h p = Some x -> scap h (svals x) <= scap h vs) -> still h a h' a' n')
  | _ => True
  end.
Proof.
  intros L1 L2 Lc <-. destruct (p_finish h a p vs (S i)) as [h'|] eqn:E; [|exact I].
  apply p_finish_keep in E as (S & K & y & Ey & Ly & Cy); [|lia|exact Lc].
  split; [lia|]. split; [rewrite (sized_len _ _ _ S); exact L2|]. split; [auto|].
  split; [exists y; split; [exact Ey|lia]|]. intros _ _ Ep Cp. apply still_one with (n := snd p); auto.
  intros u w Eu Ew. rewrite Ey in Ew. injection Ew as <-. apply (Cy Ep Cp). destruct p as [pa id]. simpl in *. subst pa. exact Eu.
Qed.

Definition value_good f := forall h a n s pos, n <= length (narr h a) -> good h a n (m_value f h a n s pos).
Definition array_good f := forall h a n s pos, n <= length (narr h a) -> good h a n (m_array f h a n s pos).
Definition object_good f := forall h a n s pos, n <= length (narr h a) -> good h a n (m_object f h a n s pos).
Definition element_good f := forall h a n p vs i s pos, n <= length (narr h a) -> snd p < n -> i <= slen vs ->
  goodE h a n p vs i (m_element f h a n p vs i s pos).
Definition key_good f := forall h a n p vs i s pos, n <= length (narr h a) -> snd p < n -> i <= slen vs ->
  goodE h a n p vs i (m_key f h a n p vs i s pos).

Lemma good_all : forall f, value_good f /\ array_good f /\ element_good f /\ object_good f /\ key_good f.
Proof.
  induction f as [|f (IV & IA & IE & IO & IK)]; [repeat split; repeat intro; exact I|].
  split; [|split; [|split; [|split]]].
  - intros h a n s pos L. cbn [m_value]. destruct (skipSpace s pos) as [s1 pos1]. destruct s1 as [|c r]; [exact I|].
    destruct (beqb c delimString); [destruct (readString r); [apply done_good; exact L|exact I]|].
    destruct (beqb c delimBeginObject); [apply IO; exact L|]. destruct (beqb c delimBeginArray); [apply IA; exact L|].
    destruct (_ || _); [apply done_good; exact L|].
    destruct (beqb c x6e); [apply literal_good; exact L|]. destruct (beqb c x66); [apply literal_good; exact L|].
    destruct (beqb c x74); [apply literal_good; exact L|exact I].
  - intros h a n s pos L. cbn [m_array]. destruct (p_node h a n) as [h1 a1] eqn:En.
    destruct (sget h1 (a1, n)) as [x|] eqn:Ex; [|exact I].
    destruct (skipSpace s pos) as [s1 pos1]. destruct s1 as [|c r]; [exact I|].
    destruct (open_good h a n h1 a1 x vArray (m_element f (sput h1 (a1, n) (mkSlot vArray [] (svals x))) a1 (S n) (a1, n) (sfull (sput h1 (a1, n) (mkSlot vArray [] (svals x))) (svals x)) 0 (c :: r) pos1) L En Ex) as (L2 & G).
    destruct (beqb c delimEndArray).
    { destruct (p_blank _ (a1, n) vArray []) as [h3|] eqn:Eb; [|exact I].
      apply p_blank_keep in Eb as (S3 & L3 & K3 & C3). apply p_node_keep in En as (L1 & K1 & R1); [|exact L].
      unfold good. split; [lia|]. split; [lia|]. split; [intros i Hi; rewrite K3 by lia; rewrite sget_sput_other by (simpl; lia); auto|].
      intros (R & _). destruct (R1 ltac:(lia)) as [-> ->]. eapply (still_trans _ _ (sput h (a, n) (mkSlot vArray [] (svals x))) (S n)); [| |apply Nat.le_refl].
      - apply still_one with (n := n); [apply sized_sput|intros i Hi; apply sget_sput_other; exact Hi| |lia].
        intros u w Eu Ew. rewrite sget_sput_same in Ew by exact L1. injection Ew as <-. cbn [svals]. rewrite Ex in Eu. injection Eu as <-. lia.
      - apply still_one with (n := n); auto. intros u w Eu Ew. rewrite <- (scap_sized _ _ (svals w) S3). eauto. }
    apply G. apply (IE _ _ _ (a1, n)); [exact L2|simpl; lia|lia].
  - intros h a n p vs i s pos L Lp Li. cbn [m_element]. destruct (m_appendV h vs _ i) as [h1 vs1] eqn:Ea.
    apply appendV_keep in Ea as (N1 & Li1 & V1); [|exact Li].
    assert (L1 : n <= length (narr h1 a)) by (unfold narr; rewrite N1; exact L).
    pose proof (IV h1 a n s pos L1) as GV. destruct (m_value f h1 a n s pos) as [h2 a2 n2 pos2 s2|h2 e| |]; try exact I.
    pose proof GV as (A2 & B2 & _). destruct (skipSpace s2 pos2) as [s3 pos3]. destruct s3 as [|c r]; [exact I|].
    destruct (beqb c delimValueSeparator).
    { eapply child_good; [exact Lp|exact N1|exact V1|exact GV|].
      pose proof (IE h2 a2 n2 p vs1 (S i) r (pos3 + 1)%N B2 ltac:(lia) ltac:(lia)) as GE.
      destruct (m_element _ _ _ _ _ _ _ _ _); try exact I. unfold goodE in GE. destruct GE as (A & B & C & (y & Ey & Ly) & D).
      split; [lia|]. split; [exact B|]. split; [exact C|]. split; [exists y; split; [exact Ey|lia]|exact D]. }
    destruct (beqb c delimEndArray); [|exact I].
    eapply child_good; [exact Lp|exact N1|exact V1|exact GV|]. apply finish_good; auto; lia.
  - intros h a n s pos L. cbn [m_object]. destruct (p_node h a n) as [h1 a1] eqn:En.
    destruct (sget h1 (a1, n)) as [x|] eqn:Ex; [|exact I].
    destruct (skipSpace s pos) as [s1 pos1]. destruct s1 as [|c r]; [exact I|].
    destruct (open_good h a n h1 a1 x vObject (m_key f (sput h1 (a1, n) (mkSlot vObject [] (svals x))) a1 (S n) (a1, n) (sfull (sput h1 (a1, n) (mkSlot vObject [] (svals x))) (svals x)) 0 r (pos1 + 1)) L En Ex) as (L2 & G).
    destruct (beqb c delimEndObject).
    { destruct (p_blank _ (a1, n) vObject []) as [h3|] eqn:Eb; [|exact I].
      apply p_blank_keep in Eb as (S3 & L3 & K3 & C3). apply p_node_keep in En as (L1 & K1 & R1); [|exact L].
      unfold good. split; [lia|]. split; [lia|]. split; [intros i Hi; rewrite K3 by lia; rewrite sget_sput_other by (simpl; lia); auto|].
      intros (R & _). destruct (R1 ltac:(lia)) as [-> ->]. eapply (still_trans _ _ (sput h (a, n) (mkSlot vObject [] (svals x))) (S n)); [| |apply Nat.le_refl].
      - apply still_one with (n := n); [apply sized_sput|intros i Hi; apply sget_sput_other; exact Hi| |lia].
        intros u w Eu Ew. rewrite sget_sput_same in Ew by exact L1. injection Ew as <-. cbn [svals]. rewrite Ex in Eu. injection Eu as <-. lia.
      - apply still_one with (n := n); auto. intros u w Eu Ew. rewrite <- (scap_sized _ _ (svals w) S3). eauto. }
    destruct (beqb c delimString); [|exact I].
    apply G. apply (IK _ _ _ (a1, n)); [exact L2|simpl; lia|lia].
  - intros h a n p vs i s pos L Lp Li. cbn [m_key]. destruct (scanQuote s 0) as [q|]; [|exact I].
    destruct (m_appendV h vs _ i) as [h1 vs1] eqn:Ea. apply appendV_keep in Ea as (N1 & Li1 & V1); [|exact Li].
    assert (L1 : n <= length (narr h1 a)) by (unfold narr; rewrite N1; exact L).
    destruct (skipSpace (skipn (S q) s) _) as [s0 pos0]. destruct s0 as [|c0 r0]; [exact I|].
    destruct (beqb c0 delimNameSeparator); [|exact I].
    pose proof (IV h1 a n r0 (pos0 + 1)%N L1) as GV. destruct (m_value f h1 a n r0 _) as [h2 a2 n2 pos2 s2|h2 e| |]; try exact I.
    pose proof GV as (A2 & B2 & _). destruct (skipSpace s2 pos2) as [s3 pos3]. destruct s3 as [|c r]; [exact I|].
    destruct (beqb c delimValueSeparator).
    { destruct (skipSpace r _) as [s4 pos4]. destruct s4 as [|c4 r4]; [exact I|]. destruct (beqb c4 delimString); [|exact I].
      eapply child_good; [exact Lp|exact N1|exact V1|exact GV|].
      pose proof (IK h2 a2 n2 p vs1 (S i) r4 (pos4 + 1)%N B2 ltac:(lia) ltac:(lia)) as GE.
      destruct (m_key _ _ _ _ _ _ _ _ _); try exact I. unfold goodE in GE. destruct GE as (A & B & C & (y & Ey & Ly) & D).
      split; [lia|]. split; [exact B|]. split; [exact C|]. split; [exists y; split; [exact Ey|lia]|exact D]. }
    destruct (beqb c delimEndObject); [|exact I].
    eapply child_good; [exact Lp|exact N1|exact V1|exact GV|]. apply finish_good; auto; lia.
Qed.
