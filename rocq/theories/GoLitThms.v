(* Lemmas: string literals of Go. *)
From Verif Require Import Bytes JsonSpec StrSpec Utf8 Utf8Proofs GoLit GoLitSpec.
Local Open Scope N_scope.

Lemma goSource_cons k r s : scalar r -> r <> 0 -> r <> 65279 -> goSource (S k) (utf8 r ++ s) = goSource k s.
Proof.
  intros Sc N0 NB. pose proof (utf8_nonempty r) as Ne. cbn [goSource]. rewrite (decode_enc r s Sc). destruct (utf8 r ++ s) as [|c t] eqn:E.
  - destruct (utf8 r); [congruence|discriminate].
  - rewrite <- E. rewrite skipn_app, skipn_all, Nat.sub_diag. cbn [app skipn]. apply N.eqb_neq in N0, NB. rewrite N0, NB. cbn [negb andb].
    assert (X : ((r =? RuneError) && (length (utf8 r) =? 1)%nat)%bool = false).
    { destruct (r =? RuneError) eqn:Er; [|reflexivity]. apply N.eqb_eq in Er. subst r. reflexivity. }
    rewrite X. reflexivity.
Qed.
Lemma source_goSource rs : Forall (fun r => scalar r /\ r <> 0 /\ r <> 65279) rs -> forall k, (length (utf8s rs) <= k)%nat -> goSource k (utf8s rs) = true.
Proof.
  induction 1 as [|r rs (Sc & N0 & NB) F IH]; intros k L; [destruct k; reflexivity|]. unfold utf8s in *. cbn [map concat] in *. rewrite app_length in L. pose proof (utf8_nonempty r) as Ne.
  assert (length (utf8 r) <> 0)%nat by (destruct (utf8 r); [congruence|discriminate]). destruct k as [|k]; [lia|]. rewrite goSource_cons by auto. apply IH. lia.
Qed.
Lemma goSource_source : forall k s, goSource k s = true -> source_text s.
Proof.
  induction k as [|k IH]; intros [|c t] H; try (exists []; split; [constructor|reflexivity]); [discriminate|]. cbn [goSource] in H. destruct (DecodeRune (c :: t)) as [r n] eqn:D.
  rewrite !andb_true_iff, !negb_true_iff in H. destruct H as (((H1 & H2) & H3) & H4). apply N.eqb_neq in H2, H3.
  destruct (decode_inv c t) as [(r' & u & Sc & Eq & X)|(X & _)]; rewrite D in X; injection X as -> ->; [|discriminate].
  rewrite Eq, skipn_app, skipn_all, Nat.sub_diag in H4. cbn [app skipn] in H4. destruct (IH _ H4) as (l & F & Es). exists (r' :: l). split; [constructor; auto|]. rewrite Eq, Es. reflexivity.
Qed.
Lemma goSource_iff s : goSource (length s) s = true <-> source_text s.
Proof. split; [apply goSource_source|]. intros (rs & F & ->). apply source_goSource; [exact F|lia]. Qed.

(* ---- interpreted strings ---- *)
Definition hexb (c : byte) : bool := (digitVal c <? 16).
Definition hexcheck (c : byte) : bool := Bool.eqb (hexb c) (((48 <=? bN c) && (bN c <=? 57)) || ((65 <=? bN c) && (bN c <=? 70)) || ((97 <=? bN c) && (bN c <=? 102))) && (negb (hexb c) || (digitVal c =? hexval c)).
Lemma hexcheck_all c : hexcheck c = true.
Proof. destruct c; reflexivity. Qed.
Lemma hexdigit_iff c : hexdigit c <-> (digitVal c <? 16) = true.
Proof.
  pose proof (hexcheck_all c) as H. unfold hexcheck in H. apply andb_prop in H as [H _]. apply Bool.eqb_prop in H. unfold hexb in H. rewrite H. unfold hexdigit.
  rewrite !orb_true_iff, !andb_true_iff, !N.leb_le. tauto.
Qed.
Lemma hex_value c : (digitVal c <? 16) = true -> digitVal c = hexval c.
Proof. pose proof (hexcheck_all c) as H. unfold hexcheck, hexb in H. intro E. rewrite E in H. apply andb_prop in H as [_ H]. apply N.eqb_eq, H. Qed.
Definition octcheck (c : byte) : bool := Bool.eqb (digitVal c <? 8) ((48 <=? bN c) && (bN c <=? 55)).
Lemma octcheck_all c : octcheck c = true.
Proof. destruct c; reflexivity. Qed.
Lemma octdigit_iff c : octdigit c <-> (digitVal c <? 8) = true.
Proof. pose proof (octcheck_all c) as H. apply Bool.eqb_prop in H. rewrite H. unfold octdigit. rewrite andb_true_iff, !N.leb_le. tauto. Qed.
Lemma oct_hex c : (digitVal c <? 8) = true -> (digitVal c <? 16) = true.
Proof. rewrite !N.ltb_lt. lia. Qed.
Lemma simpleEscape_iff e b : simpleEscape e = Some b <-> go_escape e b.
Proof.
  split.
  - unfold simpleEscape. intro H.
    repeat (match type of H with context [beqb ?x ?y] => destruct (beqb_spec x y) as [->|_]; [injection H as <-; constructor|] end). discriminate.
  - destruct 1; reflexivity.
Qed.
Lemma scalarb n : ((n <? 55296) || ((57344 <=? n) && (n <? 1114112)))%bool = true <-> scalar n.
Proof. unfold scalar. rewrite orb_true_iff, andb_true_iff, !N.ltb_lt, N.leb_le. tauto. Qed.
Lemma number_cons base c r acc n : numberIn base (c :: r) acc = Some n <-> (digitVal c <? base) = true /\ numberIn base r (acc * base + digitVal c) = Some n.
Proof. cbn [numberIn]. destruct (digitVal c <? base); split; [auto|tauto|discriminate|intros (? & _); discriminate]. Qed.
Lemma number_nil base acc n : numberIn base [] acc = Some n <-> acc = n.
Proof. cbn. split; [congruence|intros ->; reflexivity]. Qed.
Lemma byte_hex a b v : byteEscape 16 [a; b] = Some v <-> hexdigit a /\ hexdigit b /\ v = [Nb (16 * hexval a + hexval b)].
Proof.
  unfold byteEscape. rewrite !hexdigit_iff. destruct (numberIn 16 [a; b] 0) as [n|] eqn:E.
  - rewrite !number_cons, number_nil in E. destruct E as (A & B & <-). rewrite (hex_value a A), (hex_value b B). apply N.ltb_lt in A as A'. apply N.ltb_lt in B as B'. rewrite (hex_value a A) in A'. rewrite (hex_value b B) in B'.
    assert (L : ((0 * 16 + hexval a) * 16 + hexval b <? 256) = true) by (apply N.ltb_lt; lia). rewrite L. rewrite <- (hex_value a A), <- (hex_value b B).
    replace ((0 * 16 + digitVal a) * 16 + digitVal b) with (16 * digitVal a + digitVal b) by lia. split; [intro H; injection H as <-; auto|intros (_ & _ & ->); reflexivity].
  - split; [discriminate|]. intros (A & B & _). exfalso. assert (X : exists n, numberIn 16 [a; b] 0 = Some n) by (eexists; rewrite !number_cons, number_nil; eauto). destruct X. congruence.
Qed.
Lemma byte_oct a b c v : byteEscape 8 [a; b; c] = Some v <->
  octdigit a /\ octdigit b /\ octdigit c /\ 64 * hexval a + 8 * hexval b + hexval c < 256 /\ v = [Nb (64 * hexval a + 8 * hexval b + hexval c)].
Proof.
  unfold byteEscape. rewrite !octdigit_iff. destruct (numberIn 8 [a; b; c] 0) as [n|] eqn:E.
  - rewrite !number_cons, number_nil in E. destruct E as (A & B & C & <-). rewrite <- (hex_value a (oct_hex _ A)), <- (hex_value b (oct_hex _ B)), <- (hex_value c (oct_hex _ C)).
    replace (((0 * 8 + digitVal a) * 8 + digitVal b) * 8 + digitVal c) with (64 * digitVal a + 8 * digitVal b + digitVal c) by lia.
    destruct (N.ltb_spec (64 * digitVal a + 8 * digitVal b + digitVal c) 256); split; [intro H'; injection H' as <-; auto|intros (_ & _ & _ & _ & ->); reflexivity|discriminate|intros (_ & _ & _ & ? & _); lia].
  - split; [discriminate|]. intros (A & B & C & _). exfalso. assert (X : exists n, numberIn 8 [a; b; c] 0 = Some n) by (eexists; rewrite !number_cons, number_nil; eauto). destruct X. congruence.
Qed.
Lemma rune4 a b c d v : runeEscape [a; b; c; d] = Some v <-> hexdigit a /\ hexdigit b /\ hexdigit c /\ hexdigit d /\ scalar (hex4 a b c d) /\ v = utf8 (hex4 a b c d).
Proof.
  unfold runeEscape. rewrite !hexdigit_iff. destruct (numberIn 16 [a; b; c; d] 0) as [n|] eqn:E.
  - rewrite !number_cons, number_nil in E. destruct E as (A & B & C & D & <-).
    assert (X : (((0 * 16 + digitVal a) * 16 + digitVal b) * 16 + digitVal c) * 16 + digitVal d = hex4 a b c d) by (unfold hex4; rewrite !hex_value by auto; lia). rewrite X.
    destruct ((hex4 a b c d <? 55296) || _)%bool eqn:Sc.
    + apply scalarb in Sc. rewrite (EncodeRune_spec _ Sc). split; [intro H'; injection H' as <-; repeat (split; auto)|intros (_ & _ & _ & _ & _ & ->); reflexivity].
    + split; [discriminate|]. intros (_ & _ & _ & _ & S' & _). apply scalarb in S'. congruence.
  - split; [discriminate|]. intros (A & B & C & D & _). exfalso. assert (X : exists n, numberIn 16 [a; b; c; d] 0 = Some n) by (eexists; rewrite !number_cons, number_nil; eauto 9). destruct X. congruence.
Qed.
Lemma rune8 a b c d a' b' c' d' v : runeEscape [a; b; c; d; a'; b'; c'; d'] = Some v <->
  Forall hexdigit [a; b; c; d; a'; b'; c'; d'] /\ scalar (65536 * hex4 a b c d + hex4 a' b' c' d') /\ v = utf8 (65536 * hex4 a b c d + hex4 a' b' c' d').
Proof.
  unfold runeEscape. rewrite !Forall_cons_iff, !hexdigit_iff. destruct (numberIn 16 [a; b; c; d; a'; b'; c'; d'] 0) as [n|] eqn:E.
  - rewrite !number_cons, number_nil in E. destruct E as (A & B & C & D & A' & B' & C' & D' & <-).
    match goal with |- context [?x <? 55296] => assert (X : x = 65536 * hex4 a b c d + hex4 a' b' c' d') by (unfold hex4; rewrite !hex_value by auto; lia) end. rewrite X.
    destruct ((_ <? 55296) || _)%bool eqn:Sc.
    + apply scalarb in Sc. rewrite (EncodeRune_spec _ Sc). split; [intro H'; injection H' as <-; repeat (split; auto)|intros (_ & _ & ->); reflexivity].
    + split; [discriminate|]. intros (_ & S' & _). apply scalarb in S'. congruence.
  - split; [discriminate|]. intros ((A & B & C & D & A' & B' & C' & D' & _) & _). exfalso. assert (X : exists n, numberIn 16 [a; b; c; d; a'; b'; c'; d'] 0 = Some n) by (eexists; rewrite !number_cons, number_nil; eauto 20). destruct X. congruence.
Qed.
Lemma join_iff a b v : joinLit a b = Some v <-> exists x y, a = Some x /\ b = Some y /\ v = x ++ y.
Proof. destruct a as [x|], b as [y|]; cbn; (split; [intro H; try discriminate; injection H as <-; eauto|intros (x' & y' & A & B & ->); congruence]). Qed.
Lemma goLit_sound : forall n s v, (length s <= n)%nat -> goLit s = Some v -> go_string s v.
Proof.
  induction n as [|n IH]; intros [|c r] v L H; try (injection H as <-; constructor); [cbn in L; lia|]. cbn [goLit] in H. cbn [length] in L.
  destruct (beqb_spec c x22) as [->|N1]; [discriminate|]. destruct (beqb_spec c x0a) as [->|N2]; [discriminate|]. cbn [orb] in H. destruct (beqb_spec c x5c) as [->|N3]; cbn [negb] in H.
  2:{ apply join_iff in H as (x & y & Ex & Ey & ->). injection Ex as <-. constructor; auto. apply IH; [lia|exact Ey]. }
  destruct r as [|e r]; [discriminate|]. cbn [length] in L. destruct (simpleEscape e) as [b|] eqn:Se.
  { apply simpleEscape_iff in Se. apply join_iff in H as (x & y & Ex & Ey & ->). injection Ex as <-. constructor; auto. apply IH; [lia|exact Ey]. }
  destruct (beqb_spec e x78) as [->|_].
  { destruct r as [|a [|b r]]; try discriminate. cbn [length] in L. apply join_iff in H as (x & y & Ex & Ey & ->). apply byte_hex in Ex as (A & B & ->). apply (gs_byte a b r y A B). apply IH; [lia|exact Ey]. }
  destruct (beqb_spec e x75) as [->|_].
  { destruct r as [|a [|b [|c [|d r]]]]; try discriminate. cbn [length] in L. apply join_iff in H as (x & y & Ex & Ey & ->). apply rune4 in Ex as (A & B & C & D & Sc & ->). apply gs_u; auto. apply IH; [lia|exact Ey]. }
  destruct (beqb_spec e x55) as [->|_].
  { destruct r as [|a [|b [|c [|d [|a' [|b' [|c' [|d' r]]]]]]]]; try discriminate. cbn [length] in L. apply join_iff in H as (x & y & Ex & Ey & ->). apply rune8 in Ex as (F & Sc & ->). apply gs_U; auto. apply IH; [lia|exact Ey]. }
  destruct r as [|a [|b r]]; try discriminate. cbn [length] in L. apply join_iff in H as (x & y & Ex & Ey & ->). apply byte_oct in Ex as (A & B & C & Le & ->). apply (gs_octal e a b r y A B C Le). apply IH; [lia|exact Ey].
Qed.
Definition octSimple (c : byte) : bool := negb (digitVal c <? 8) || match simpleEscape c with None => negb (beqb c x78 || beqb c x75 || beqb c x55 || beqb c x22 || beqb c x0a) | Some _ => false end.
Lemma octSimple_all c : octSimple c = true.
Proof. destruct c; reflexivity. Qed.
Lemma goLit_complete s v : go_string s v -> goLit s = Some v.
Proof.
  induction 1 as [|c s v N1 N2 N3 H IH|e b s v Es H IH|a b s v A B H IH|a b c s v A B C Le H IH|a b c d s v A B C D Sc H IH|a b c d a' b' c' d' s v F Sc H IH].
  - reflexivity.
  - cbn [goLit]. destruct (beqb_spec c x22); [congruence|]. destruct (beqb_spec c x0a); [congruence|]. destruct (beqb_spec c x5c); [congruence|]. cbn [orb negb]. rewrite IH. reflexivity.
  - apply simpleEscape_iff in Es. cbn [goLit]. change (beqb x5c x22 || beqb x5c x0a)%bool with false. change (negb (beqb x5c x5c)) with false. cbv iota. rewrite Es, IH. reflexivity.
  - cbn [goLit]. change (beqb x5c x22 || beqb x5c x0a)%bool with false. change (negb (beqb x5c x5c)) with false. cbv iota. change (simpleEscape x78) with (@None byte). change (beqb x78 x78) with true. cbv iota.
    rewrite IH. apply join_iff. eexists _, _. split; [apply byte_hex; eauto|]. split; reflexivity.
  - cbn [goLit]. change (beqb x5c x22 || beqb x5c x0a)%bool with false. change (negb (beqb x5c x5c)) with false. cbv iota. pose proof (octSimple_all a) as O. unfold octSimple in O. apply octdigit_iff in A as A'. rewrite A' in O. cbn [negb orb] in O.
    destruct (simpleEscape a); [discriminate|]. apply negb_true_iff in O. rewrite !orb_false_iff in O. destruct O as ((((-> & ->) & ->) & _) & _). rewrite IH. apply join_iff. eexists _, _. split; [apply byte_oct; eauto 9|]. split; reflexivity.
  - cbn [goLit]. change (beqb x5c x22 || beqb x5c x0a)%bool with false. change (negb (beqb x5c x5c)) with false. cbv iota. change (simpleEscape x75) with (@None byte). change (beqb x75 x78) with false. change (beqb x75 x75) with true. cbv iota.
    rewrite IH. apply join_iff. eexists _, _. split; [apply rune4; eauto 9|]. split; reflexivity.
  - cbn [goLit]. change (beqb x5c x22 || beqb x5c x0a)%bool with false. change (negb (beqb x5c x5c)) with false. cbv iota. change (simpleEscape x55) with (@None byte). change (beqb x55 x78) with false. change (beqb x55 x75) with false. change (beqb x55 x55) with true. cbv iota.
    rewrite IH. apply join_iff. eexists _, _. split; [apply rune8; eauto 9|]. split; reflexivity.
Qed.
Lemma goodName_iff s : goodName s = true <-> name_quoted s.
Proof.
  unfold goodName, name_quoted. rewrite andb_true_iff, goSource_iff. split; intros (A & B); (split; [exact A|]).
  - destruct (goLit s) as [v|] eqn:E; [|discriminate]. exists v. eapply goLit_sound; eauto.
  - destruct B as (v & B). rewrite (goLit_complete _ _ B). reflexivity.
Qed.
Lemma goodRaw_iff s : goodRaw s = true <-> name_raw s.
Proof.
  unfold goodRaw, name_raw. rewrite andb_true_iff, goSource_iff, forallb_forall. split; intros (A & B); (split; [exact A|]).
  - split; intro I; apply B in I; discriminate.
  - destruct B as (B1 & B2). intros c I. destruct (beqb_spec c x60) as [->|_]; [contradiction|]. destruct (beqb_spec c x0d) as [->|_]; [contradiction|]. reflexivity.
Qed.
Lemma litText_value s v : go_string s v -> litText s = v.
Proof. intro H. unfold litText. rewrite (goLit_complete _ _ H). reflexivity. Qed.
Lemma litText_plain s : ~ In x22 s -> ~ In x5c s -> ~ In x0a s -> litText s = s.
Proof.
  intros A B C. apply litText_value. revert A B C. induction s as [|c s IH]; intros A B C; constructor; try (intros ->); try (apply A; left; reflexivity); try (apply B; left; reflexivity); try (apply C; left; reflexivity).
  apply IH; intro I; [apply A|apply B|apply C]; right; exact I.
Qed.
