(* What a parse allocates in the memory model. *)
From Verif Require Import Bytes Tables Types Parser Doc LexProofs DocProofs CopyProofs Mem MemHeap ResSpec.

Definition vshape (h : heap) : list nat := map (@length V) (varrs h).
Definition nshape (h : heap) : list nat := map (@length slot) (narrs h).

Lemma replaceNth_same_nat (l : list nat) i d : i < length l -> replaceNth l i (nth i l d) = l.
Proof. revert i. induction l as [|x l IH]; intros [|i] H; simpl in *; auto; try lia. f_equal. apply IH. lia. Qed.
Lemma replaceNth_out {A} (l : list A) i x : length l <= i -> replaceNth l i x = l.
Proof. revert i. induction l as [|y l IH]; intros [|i] H; simpl in *; auto; try lia. f_equal. apply IH. lia. Qed.
Lemma shape_replace {A} (ls : list (list A)) i l : length l = length (nth i ls []) ->
  map (@length A) (replaceNth ls i l) = map (@length A) ls.
Proof.
  intro E. rewrite map_replaceNth, E. destruct (Nat.lt_ge_cases i (length ls)) as [Lt|Ge].
  - change (length (nth i ls [])) with ((fun l : list A => length l) (nth i ls [])).
    rewrite <- (map_nth (@length A)). apply replaceNth_same_nat. rewrite map_length. exact Lt.
  - apply replaceNth_out. rewrite map_length. exact Ge.
Qed.

Lemma wset_v h s l : vshape (wset h s l) = vshape h.
Proof. unfold wset. destruct (sarr s); auto. unfold vshape. cbn [varrs]. apply shape_replace. apply overwrite_length. Qed.
Lemma wset_n h s l : narrs (wset h s l) = narrs h.
Proof. unfold wset. destruct (sarr s); reflexivity. Qed.
Lemma sput_v h p x : varrs (sput h p x) = varrs h.
Proof. reflexivity. Qed.
Lemma sput_n h p x : nshape (sput h p x) = nshape h.
Proof. unfold sput, nshape. cbn [narrs]. apply shape_replace. apply replaceNth_length. Qed.

Lemma shape_len h h' a : nshape h' = nshape h -> length (narr h' a) = length (narr h a).
Proof. intro E. unfold narr. rewrite <- !(map_nth (@length slot)). unfold nshape in E. rewrite E. reflexivity. Qed.

(* Two heaps with arrays of the same sizes. *)
Definition sized (h h' : heap) : Prop := vshape h' = vshape h /\ nshape h' = nshape h.
Lemma sized_refl h : sized h h.
Proof. split; reflexivity. Qed.
Lemma sized_trans h1 h2 h3 : sized h1 h2 -> sized h2 h3 -> sized h1 h3.
Proof. intros [] []. split; congruence. Qed.
Lemma sized_wset h s l : sized h (wset h s l).
Proof. split; [apply wset_v|unfold nshape; rewrite wset_n; reflexivity]. Qed.
Lemma sized_sput h p x : sized h (sput h p x).
Proof. split; [reflexivity|apply sput_n]. Qed.
Lemma sized_blank h p info raw h' : p_blank h p info raw = Some h' -> sized h h'.
Proof.
  unfold p_blank. destruct (sget h p) as [x|]; [|discriminate]. intro E. injection E as <-.
  eapply sized_trans; [apply sized_wset|apply sized_sput].
Qed.
Lemma sized_finish h a p vs numV h' : p_finish h a p vs numV = Some h' -> sized h h'.
Proof.
  unfold p_finish. destruct (sget h p) as [x|]; [|discriminate].
  set (Q := if numV <? slen (svals x) then _ else _). destruct Q as [h1 vs1] eqn:EQ.
  assert (S1 : sized h h1).
  { unfold Q in EQ. destruct (numV <? slen (svals x)).
    - injection EQ as <- _. eapply sized_trans; [apply sized_sput|apply sized_wset].
    - destruct (numV <? slen vs); injection EQ as <- _; apply sized_refl. }
  destruct (snd p <? length (narr h1 a)); [|injection 1 as <-; exact S1].
  destruct (sget h1 (a, snd p)) as [y|]; [|discriminate]. injection 1 as <-.
  eapply sized_trans; [exact S1|apply sized_sput].
Qed.

Lemma sized_vc h h' : sized h h' -> vcells h' = vcells h.
Proof. intros [E _]. unfold vcells. unfold vshape in E. rewrite E. reflexivity. Qed.
Lemma sized_nc h h' : sized h h' -> ncells h' = ncells h.
Proof. intros [_ E]. unfold ncells. unfold nshape in E. rewrite E. reflexivity. Qed.
Lemma sized_len h h' a : sized h h' -> length (narr h' a) = length (narr h a).
Proof. intros [_ E]. apply shape_len. exact E. Qed.

Lemma list_sum_snoc l x : list_sum (l ++ [x]) = list_sum l + x.
Proof. induction l; simpl; lia. Qed.

(* ---- growth of the nodes ---- *)

Definition grown (h : heap) (a : nat) (h' : heap) (L' n' : nat) : Prop :=
  let L := length (narr h a) in
  ncells h <= ncells h' /\ ncells h' + 2 * L <= ncells h + 2 * L' /\ L <= L' /\ (L' <= L \/ L < n' /\ L' + 1 <= 2 * n').

Lemma grown_refl h a n : grown h a h (length (narr h a)) n.
Proof. unfold grown. lia. Qed.
Lemma grown_trans h a h1 a1 n1 h2 L2 n2 :
  grown h a h1 (length (narr h1 a1)) n1 -> grown h1 a1 h2 L2 n2 -> n1 <= n2 -> grown h a h2 L2 n2.
Proof. unfold grown. lia. Qed.
Lemma grown_sized h a h1 L n h2 : grown h a h1 L n -> sized h1 h2 -> grown h a h2 L n.
Proof. unfold grown. intros G S. rewrite (sized_nc _ _ S). exact G. Qed.
Lemma grown_sized_l h0 h a h1 L n : sized h0 h -> grown h a h1 L n -> grown h0 a h1 L n.
Proof. unfold grown. intros S. rewrite (sized_nc _ _ S), (sized_len _ _ _ S). auto. Qed.
Lemma grown_more h a h1 L n n' : grown h a h1 L n -> n <= n' -> grown h a h1 L n'.
Proof. unfold grown. lia. Qed.

Lemma grown_node h a n h' a' : p_node h a n = (h', a') ->
  vcells h' = vcells h /\ grown h a h' (length (narr h' a')) (S n) /\ (n < length (narr h a) -> h' = h /\ a' = a).
Proof.
  unfold p_node. destruct (Nat.ltb_spec n (length (narr h a))) as [Lt|Ge]; injection 1 as <- <-.
  - split; [reflexivity|]. split; [apply grown_refl|auto].
  - split; [reflexivity|]. split; [|lia].
    set (h1 := mkH _ _). assert (E1 : length (narr h1 (length (narrs h))) = 2 * length (narr h a) + 1).
    { unfold h1. unfold narr at 1. cbn [narrs]. rewrite nth_middle, app_length, repeat_length. lia. }
    assert (E2 : ncells h1 = ncells h + (2 * length (narr h a) + 1)).
    { unfold h1, ncells. cbn [narrs]. rewrite map_app. cbn [map]. rewrite list_sum_snoc, app_length, repeat_length. lia. }
    unfold grown. rewrite E1, E2. lia.
Qed.

(* ---- growth of the values ---- *)

Definition credit (s : slice) (i : nat) : nat := 4 * i - 2 * slen s.

Lemma appendV_cost h s v i h' s' : m_appendV h s v i = (h', s') -> i <= slen s ->
  vcells h' + credit s' (S i) <= vcells h + credit s i + 4 /\ vcells h' <= vcells h + credit s i + 4 /\ i < slen s' /\
  nshape h' = nshape h.
Proof.
  unfold m_appendV, credit. destruct (Nat.ltb_spec i (slen s)) as [Lt|Ge].
  - injection 1 as <- <-. intros _. unfold wput. pose proof (sized_wset h (sfrom s i) [v]) as S. rewrite (sized_vc _ _ S).
    destruct S. repeat split; auto; lia.
  - unfold valloc. cbn [slen]. destruct (Nat.ltb_spec i (2 * slen s + 1)) as [Lt|]; [|intros; lia].
    injection 1 as <- <-. intros Hi. unfold wput.
    set (h1 := mkH _ _). match goal with |- context [wset ?x ?y ?z] => pose proof (sized_wset x y z) as S end.
    rewrite (sized_vc _ _ S). assert (V1 : vcells h1 <= vcells h + (2 * slen s + 1)).
    { unfold h1, vcells. cbn [varrs]. rewrite map_app. cbn [map]. rewrite list_sum_snoc, app_length, repeat_length.
      assert (length (sread h s) <= slen s). { unfold sread. destruct (sarr s); simpl; [|lia]. rewrite firstn_length. lia. } lia. }
    cbn [slen]. destruct S as [_ S]. split; [lia|]. split; [lia|]. split; [lia|]. rewrite S. reflexivity.
Qed.

(* ---- the parser ---- *)

Definition costs (h : heap) (a n : nat) (s : bytes) (b k c e : nat) (r : mpres) : Prop :=
  match r with
  | MOk h' a' n' _ s' =>
      n < n' /\ n' + length s' + b <= n + length s /\ vcells h' + 4 + 4 * n <= vcells h + c + 4 * n' /\
      grown h a h' (length (narr h' a')) n'
  | MErr h' _ => vcells h' <= vcells h + e + 4 * length s /\ exists L', grown h a h' L' (n + length s + k)
  | MPanic | MFuel => True
  end.

Lemma costs_start h a n s k e err : costs h a n s 0 k 0 e (MErr h err).
Proof. simpl. split; [lia|]. exists (length (narr h a)). apply grown_refl. Qed.

Lemma skip_len s pos s' pos' : skipSpace s pos = (s', pos') -> length s' <= length s.
Proof. intro E. apply skipSpace_spec in E as (w & -> & _). rewrite app_length. lia. Qed.

Lemma blank_cost h0 a0 h a n info raw pos r k e h' s : p_blank h (a, n) info raw = Some h' ->
  vcells h = vcells h0 -> grown h0 a0 h (length (narr h a)) (S n) -> S (length r) <= length s ->
  costs h0 a0 n s 0 k 0 e (MOk h' a (S n) pos r).
Proof.
  intros E V G L. apply sized_blank in E. unfold costs. rewrite (sized_vc _ _ E), (sized_len _ _ _ E).
  split; [lia|]. split; [lia|]. split; [lia|]. eapply grown_sized; eauto.
Qed.

Lemma done_cost h a n info raw pos r s k e : S (length r) <= length s -> costs h a n s 0 k 0 e (m_done h a n info raw pos r).
Proof.
  intro L. unfold m_done. destruct (p_node h a n) as [h1 a1] eqn:E. apply grown_node in E as (V & G & _).
  destruct (p_blank h1 (a1, n) info raw) as [h2|] eqn:E2; [|exact I]. eapply blank_cost; eauto.
Qed.

Lemma literal_cost h a n info typ lit s pos s' : lit <> [] -> length s <= length s' -> costs h a n s' 0 0 0 0 (m_literal h a n info typ lit s pos).
Proof.
  intros N L. unfold m_literal. destruct (Nat.leb_spec (length lit) (length s)); [|apply costs_start].
  destruct (bseqb (firstn (length lit) s) lit); [|apply costs_start].
  apply done_cost. rewrite skipn_length. destruct lit; [congruence|]. simpl in *. lia.
Qed.

Lemma readNumber_pos c r : beqb (tbl bytemapIsDigit c) x01 || beqb c x2d = true -> 1 <= readNumber (c :: r).
Proof.
  intro H. simpl. rewrite tbl_numend. assert (E : numendb c = false).
  { rewrite tbl_digit in H. apply orb_true_iff in H as [H|H]; [apply digit_not_numend; auto|]. apply beqb_true in H as ->. reflexivity. }
  rewrite E. simpl. lia.
Qed.

Definition value_cost f := forall h a n s pos, costs h a n s 0 0 0 0 (m_value f h a n s pos).
Definition array_cost f := forall h a n s pos, costs h a n s 0 1 0 4 (m_array f h a n s pos).
Definition object_cost f := forall h a n s pos, costs h a n s 0 1 0 4 (m_object f h a n s pos).
Definition element_cost f := forall h a n p vs i s pos, i <= slen vs ->
  costs h a n s 1 0 (credit vs i + 4) (credit vs i + 4) (m_element f h a n p vs i s pos).
Definition key_cost f := forall h a n p vs i s pos, i <= slen vs ->
  costs h a n s 1 0 (credit vs i + 4) (credit vs i + 4) (m_key f h a n p vs i s pos).

(* after the child: what is still to be paid *)
Lemma costs_after h0 a0 n0 s0 c0 h a n s c r :
  n0 < n -> n + length s <= n0 + length s0 -> vcells h + c + 4 * n0 <= vcells h0 + c0 + 4 * n ->
  grown h0 a0 h (length (narr h a)) n -> costs h a n s 1 0 c c r -> costs h0 a0 n0 s0 1 0 c0 c0 r.
Proof.
  intros N1 N2 V G. destruct r; auto; unfold costs.
  - intros (A & B & C & D). split; [lia|]. split; [lia|]. split; [lia|]. eapply grown_trans; eauto. lia.
  - intros (A & L' & D). split; [lia|]. exists L'. eapply grown_trans; [exact G| |]; [eapply grown_more; [exact D|]|]; lia.
Qed.

Lemma costs_all : forall f, value_cost f /\ array_cost f /\ element_cost f /\ object_cost f /\ key_cost f.
Proof.
  induction f as [|f (IV & IA & IE & IO & IK)]; [repeat split; repeat intro; exact I|].
  split; [|split; [|split; [|split]]].
  - intros h a n s pos. cbn [m_value]. destruct (skipSpace s pos) as [s1 pos1] eqn:Es. apply skip_len in Es.
    destruct s1 as [|c r]; [apply costs_start|]. cbn [length] in Es.
    destruct (beqb c delimString).
    { destruct (readString r) as [i|] eqn:Er; [|apply costs_start]. apply done_cost. rewrite skipn_length. lia. }
    destruct (beqb c delimBeginObject).
    { specialize (IO h a n r (pos1 + 1)%N). destruct (m_object _ _ _ _ _ _); auto; unfold costs in *.
      - destruct IO as (A & B & C & D). split; [lia|]. split; [lia|]. auto.
      - destruct IO as (A & L' & D). split; [lia|]. exists L'. eapply grown_more; eauto. lia. }
    destruct (beqb c delimBeginArray).
    { specialize (IA h a n r (pos1 + 1)%N). destruct (m_array _ _ _ _ _ _); auto; unfold costs in *.
      - destruct IA as (A & B & C & D). split; [lia|]. split; [lia|]. auto.
      - destruct IA as (A & L' & D). split; [lia|]. exists L'. eapply grown_more; eauto. lia. }
    destruct (_ || _) eqn:Ed.
    { apply done_cost. rewrite skipn_length. pose proof (readNumber_pos _ r Ed). cbn [length] in *. lia. }
    destruct (beqb c x6e); [apply literal_cost; [discriminate|cbn [length]; lia]|].
    destruct (beqb c x66); [apply literal_cost; [discriminate|cbn [length]; lia]|].
    destruct (beqb c x74); [apply literal_cost; [discriminate|cbn [length]; lia]|]. apply costs_start.
  - intros h a n s pos. cbn [m_array]. destruct (p_node h a n) as [h1 a1] eqn:En. apply grown_node in En as (V & G & _).
    destruct (sget h1 (a1, n)) as [x|]; [|exact I].
    pose proof (sized_sput h1 (a1, n) (mkSlot vArray [] (svals x))) as S1. set (h2 := sput _ _ _) in *. clearbody h2.
    destruct (skipSpace s pos) as [s1 pos1] eqn:Es. apply skip_len in Es.
    assert (G2 : grown h a h2 (length (narr h2 a1)) (S n)) by (rewrite (sized_len _ _ _ S1); eapply grown_sized; eauto).
    assert (V2 : vcells h2 = vcells h) by (rewrite (sized_vc _ _ S1); exact V).
    destruct s1 as [|c r].
    { unfold costs. split; [lia|]. exists (length (narr h2 a1)). eapply grown_more; eauto. lia. }
    cbn [length] in Es. destruct (beqb c delimEndArray).
    { destruct (p_blank h2 (a1, n) vArray []) as [h3|] eqn:E3; [|exact I]. eapply blank_cost; eauto. }
    specialize (IE h2 a1 (S n) (a1, n) (sfull h2 (svals x)) 0 (c :: r) pos1 (Nat.le_0_l _)).
    destruct (m_element _ _ _ _ _ _ _ _ _); auto; unfold costs, credit in *; cbn [length] in *.
    + destruct IE as (A & B & C & D). split; [lia|]. split; [|split; [lia|eapply grown_trans; eauto; lia]]. lia.
    + destruct IE as (A & L' & D). split; [lia|]. exists L'. eapply grown_trans; [exact G2|eapply grown_more; [exact D|]|]; lia.
  - intros h a n p vs i s pos Hi. cbn [m_element]. destruct (m_appendV h vs _ i) as [h1 vs1] eqn:Ea.
    apply appendV_cost in Ea as (V1 & V1' & Hi' & N1); [|exact Hi].
    assert (G1 : grown h a h1 (length (narr h1 a)) n).
    { unfold grown, ncells. unfold nshape in N1. rewrite N1. rewrite (shape_len h h1 a N1). lia. }
    specialize (IV h1 a n s pos). destruct (m_value f h1 a n s pos) as [h2 a2 n2 pos2 s2|h2 e| |]; auto.
    2:{ unfold costs in *. destruct IV as (A & L' & D). split; [lia|]. exists L'. eapply grown_trans; [exact G1|exact D|lia]. }
    unfold costs in IV. destruct IV as (A & B & C & D).
    assert (G2 : grown h a h2 (length (narr h2 a2)) n2) by (eapply grown_trans; eauto; lia).
    destruct (skipSpace s2 pos2) as [s3 pos3] eqn:Es. apply skip_len in Es.
    assert (Err : forall e, costs h a n s 1 0 (credit vs i + 4) (credit vs i + 4) (MErr h2 e)).
    { intro e. unfold costs. split; [lia|]. exists (length (narr h2 a2)). eapply grown_more; [exact G2|lia]. }
    destruct s3 as [|c r]; [apply Err|]. cbn [length] in Es.
    destruct (beqb c delimValueSeparator).
    { eapply costs_after; [exact A| | |exact G2|apply IE; lia]; lia. }
    destruct (beqb c delimEndArray); [|apply Err].
    destruct (p_finish h2 a2 p vs1 (S i)) as [h3|] eqn:E3; [|exact I]. apply sized_finish in E3.
    unfold costs. rewrite (sized_vc _ _ E3), (sized_len _ _ _ E3). split; [lia|]. split; [lia|]. split; [lia|]. eapply grown_sized; eauto.
  - intros h a n s pos. cbn [m_object]. destruct (p_node h a n) as [h1 a1] eqn:En. apply grown_node in En as (V & G & _).
    destruct (sget h1 (a1, n)) as [x|]; [|exact I].
    pose proof (sized_sput h1 (a1, n) (mkSlot vObject [] (svals x))) as S1. set (h2 := sput _ _ _) in *. clearbody h2.
    destruct (skipSpace s pos) as [s1 pos1] eqn:Es. apply skip_len in Es.
    assert (G2 : grown h a h2 (length (narr h2 a1)) (S n)) by (rewrite (sized_len _ _ _ S1); eapply grown_sized; eauto).
    assert (V2 : vcells h2 = vcells h) by (rewrite (sized_vc _ _ S1); exact V).
    assert (Err : forall e, costs h a n s 0 1 0 4 (MErr h2 e)).
    { intro e. unfold costs. split; [lia|]. exists (length (narr h2 a1)). eapply grown_more; eauto. lia. }
    destruct s1 as [|c r]; [apply Err|].
    cbn [length] in Es. destruct (beqb c delimEndObject).
    { destruct (p_blank h2 (a1, n) vObject []) as [h3|] eqn:E3; [|exact I]. eapply blank_cost; eauto. }
    destruct (beqb c delimString); [|apply Err].
    specialize (IK h2 a1 (S n) (a1, n) (sfull h2 (svals x)) 0 r (pos1 + 1)%N (Nat.le_0_l _)).
    destruct (m_key _ _ _ _ _ _ _ _ _); auto; unfold costs, credit in *; cbn [length] in *.
    + destruct IK as (A & B & C & D). split; [lia|]. split; [lia|]. split; [lia|eapply grown_trans; eauto; lia].
    + destruct IK as (A & L' & D). split; [lia|]. exists L'. eapply grown_trans; [exact G2|eapply grown_more; [exact D|]|]; lia.
  - intros h a n p vs i s pos Hi. cbn [m_key].
    destruct (scanQuote s 0) as [j|]; [|unfold costs; split; [lia|exists (length (narr h a)); apply grown_refl]].
    destruct (m_appendV h vs _ i) as [h1 vs1] eqn:Ea.
    apply appendV_cost in Ea as (V1 & V1' & Hi' & N1); [|exact Hi].
    assert (G1 : grown h a h1 (length (narr h1 a)) n).
    { unfold grown, ncells. unfold nshape in N1. rewrite N1. rewrite (shape_len h h1 a N1). lia. }
    destruct (skipSpace (skipn (S j) s) _) as [s0 pos0] eqn:E0. apply skip_len in E0. rewrite skipn_length in E0.
    assert (Err1 : forall e, costs h a n s 1 0 (credit vs i + 4) (credit vs i + 4) (MErr h1 e)).
    { intro e. unfold costs. split; [lia|]. exists (length (narr h1 a)). eapply grown_more; [exact G1|lia]. }
    destruct s0 as [|c0 r0]; [apply Err1|]. cbn [length] in E0. destruct (beqb c0 delimNameSeparator); [|apply Err1].
    specialize (IV h1 a n r0 (pos0 + 1)%N). destruct (m_value f h1 a n r0 _) as [h2 a2 n2 pos2 s2|h2 e| |]; auto.
    2:{ unfold costs in *. destruct IV as (A & L' & D). split; [lia|]. exists L'. eapply grown_trans; [exact G1|eapply grown_more; [exact D|]|]; lia. }
    unfold costs in IV. destruct IV as (A & B & C & D).
    assert (G2 : grown h a h2 (length (narr h2 a2)) n2) by (eapply grown_trans; eauto; lia).
    destruct (skipSpace s2 pos2) as [s3 pos3] eqn:Es. apply skip_len in Es.
    assert (Err : forall e, costs h a n s 1 0 (credit vs i + 4) (credit vs i + 4) (MErr h2 e)).
    { intro e. unfold costs. split; [lia|]. exists (length (narr h2 a2)). eapply grown_more; [exact G2|lia]. }
    destruct s3 as [|c r]; [apply Err|]. cbn [length] in Es.
    destruct (beqb c delimValueSeparator).
    { destruct (skipSpace r _) as [s4 pos4] eqn:E4. apply skip_len in E4. destruct s4 as [|c4 r4]; [apply Err|]. cbn [length] in E4.
      destruct (beqb c4 delimString); [|apply Err].
      eapply costs_after; [exact A| | |exact G2|apply IK; lia]; lia. }
    destruct (beqb c delimEndObject); [|apply Err].
    destruct (p_finish h2 a2 p vs1 (S i)) as [h3|] eqn:E3; [|exact I]. apply sized_finish in E3.
    unfold costs. rewrite (sized_vc _ _ E3), (sized_len _ _ _ E3). split; [lia|]. split; [lia|]. split; [lia|]. eapply grown_sized; eauto.
Qed.

Lemma C75_memory_lem m r d s m' : nth_error (mdocs m) r = Some d -> m_Parse m r s = Ok m' ->
  let cap := length (narr (mheap m) (marr d)) in
  let need := mlen d + length s in
  vcells (mheap m') <= vcells (mheap m) + 4 * length s /\
  ncells (mheap m') <= ncells (mheap m) + 2 * (2 * need - cap) /\
  (need <= cap -> ncells (mheap m') = ncells (mheap m)).
Proof.
  intros Ed H. cbv zeta. unfold m_Parse in H. rewrite Ed in H.
  pose proof (proj1 (costs_all (parseFuel s)) (mheap m) (marr d) (mlen d) s 0%N) as C.
  destruct (m_value _ _ _ _ _ _) as [h a n pos t|h e| |]; try discriminate H; unfold costs, grown in C.
  - destruct (sget h (a, mlen d)) as [x|]; [|discriminate]. injection H as <-. cbn [mheap].
    match goal with |- context [sput h ?p ?y] => pose proof (sized_sput h p y) as S end.
    rewrite (sized_vc _ _ S), (sized_nc _ _ S). lia.
  - injection H as <-. cbn [mheap]. destruct C as (C & L' & D). lia.
Qed.
