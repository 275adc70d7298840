(* Lemmas for C68: struct tags. *)
From Verif Require Import Bytes JsonSpec StrSpec Utf8 Utf8Proofs GoLit GoLitSpec GoLitThms OptSpec Options OptThms Tag TagSpec.

Lemma scrub_runes s rs : runes s rs -> forall k, length s <= k -> scrub k s = Some (utf8s rs).
Proof.
  induction 1 as [|r s rs Sc H IH|c s rs B H IH]; intros k L.
  - destruct k; reflexivity.
  - pose proof (utf8_nonempty r) as N. rewrite app_length in L. assert (L0 : 0 < length (utf8 r)) by (destruct (utf8 r); [contradiction|cbn; lia]). destruct k as [|k]; [lia|].
    assert (Q : scrub (S k) (utf8 r ++ s) = let (r', n) := DecodeRune (utf8 r ++ s) in match scrub k (skipn n (utf8 r ++ s)) with Some t => Some (EncodeRune r' ++ t) | None => None end)
      by (destruct (utf8 r ++ s) eqn:E; [destruct (utf8 r); [contradiction|discriminate]|reflexivity]).
    rewrite Q, (decode_enc r s Sc), skipn_app, skipn_all, Nat.sub_diag. cbn [app skipn]. rewrite IH by lia. rewrite (EncodeRune_spec r Sc). reflexivity.
  - destruct k as [|k]; [cbn [length] in L; lia|]. cbn [scrub]. destruct (decode_inv c s) as [(r & t & S & E & _)|(D & _)]; [destruct (B r t S E)|]. rewrite D. cbn [skipn].
    rewrite IH; [|cbn [length] in L; lia]. reflexivity.
Qed.
Lemma Unquote_iff b : exists o, Unquote b = Some o /\ forall v, o = Some v <-> tag_value b v.
Proof.
  destruct (runes_total b) as (rs & R). unfold Unquote. rewrite (scrub_runes _ _ R) by lia. eexists. split; [reflexivity|]. intro v. split.
  - intro G. exists rs. split; [exact R|]. eapply goLit_sound; [apply le_n|exact G].
  - intros (rs' & R' & G). rewrite (runes_det _ _ _ R R'). apply goLit_complete. exact G.
Qed.

Lemma skipSpaces_inv s : exists n, s = repeat x20 n ++ skipSpaces s /\ forall r, skipSpaces s <> x20 :: r.
Proof.
  induction s as [|c s (n & E & N)]; [exists 0; split; [reflexivity|discriminate]|]. cbn [skipSpaces]. destruct (beqb_spec c x20) as [->|Nc].
  - exists (S n). split; [cbn [repeat app]; rewrite <- E; reflexivity|exact N].
  - exists 0. split; [reflexivity|]. intros r Q. injection Q as Q _. contradiction.
Qed.
Lemma skipSpaces_rep n s : (forall r, s <> x20 :: r) -> skipSpaces (repeat x20 n ++ s) = s.
Proof.
  intro N. induction n as [|n IH]; cbn [repeat app skipSpaces].
  - destruct s as [|c s]; [reflexivity|]. cbn [skipSpaces]. destruct (beqb_spec c x20) as [->|_]; [destruct (N s eq_refl)|reflexivity].
  - change (beqb x20 x20) with true. exact IH.
Qed.
Lemma keyByte_iff c : keyByte c = true <-> (32 < bN c)%N /\ c <> x7f /\ c <> x3a /\ c <> x22.
Proof.
  unfold keyByte. rewrite andb_true_iff, N.ltb_lt, negb_true_iff, !orb_false_iff. destruct (beqb_spec c x3a), (beqb_spec c x22), (beqb_spec c x7f); split; intros; try (split; [tauto|]); try tauto; intuition congruence.
Qed.
Lemma spanKey_inv s a b : spanKey s = (a, b) -> s = a ++ b /\ Forall (fun c => (32 < bN c)%N /\ c <> x7f /\ c <> x3a /\ c <> x22) a.
Proof.
  revert a b. induction s as [|c s IH]; intros a b H; cbn [spanKey] in H; [injection H as <- <-; split; [reflexivity|constructor]|]. destruct (keyByte c) eqn:K.
  - destruct (spanKey s) as [a' b'] eqn:Sp. injection H as <- <-. destruct (IH _ _ eq_refl) as (-> & F). split; [reflexivity|]. constructor; [apply keyByte_iff; exact K|exact F].
  - injection H as <- <-. split; [reflexivity|constructor].
Qed.
Lemma spanKey_app a r : Forall (fun c => (32 < bN c)%N /\ c <> x7f /\ c <> x3a /\ c <> x22) a -> spanKey (a ++ x3a :: r) = (a, x3a :: r).
Proof. induction 1 as [|c a K F IH]; [reflexivity|]. cbn [app spanKey]. apply keyByte_iff in K. rewrite K, IH. reflexivity. Qed.
Lemma spanQuoted_sound n : forall s a b, length s <= n -> spanQuoted s = Some (a, b) -> s = a ++ x22 :: b /\ tag_text a.
Proof.
  induction n as [|n IH]; intros [|c s] a b L H; try discriminate; [cbn in L; lia|]. cbn [spanQuoted] in H. cbn [length] in L. destruct (beqb_spec c x22) as [->|N1]; [injection H as <- <-; split; [reflexivity|constructor]|].
  destruct (beqb_spec c x5c) as [->|N2].
  - destruct s as [|d s]; [discriminate|]. cbn [length] in L. destruct (spanQuoted s) as [[a' b']|] eqn:Sp; [|discriminate]. injection H as <- <-. destruct (IH s a' b' ltac:(lia) Sp) as (-> & T). split; [reflexivity|constructor; exact T].
  - destruct (spanQuoted s) as [[a' b']|] eqn:Sp; [|discriminate]. injection H as <- <-. destruct (IH s a' b' ltac:(lia) Sp) as (-> & T). split; [reflexivity|constructor; auto].
Qed.
Lemma spanQuoted_complete a b : tag_text a -> spanQuoted (a ++ x22 :: b) = Some (a, b).
Proof.
  induction 1 as [|c s N1 N2 T IH|c s T IH]; [reflexivity|..]; cbn [app spanQuoted].
  - destruct (beqb_spec c x22); [contradiction|]. destruct (beqb_spec c x5c); [contradiction|]. rewrite IH. reflexivity.
  - change (beqb x5c x22) with false. change (beqb x5c x5c) with true. cbv iota. rewrite IH. reflexivity.
Qed.
Lemma pair_app n k b s : tag_pair n k b ++ s = repeat x20 n ++ k ++ x3a :: x22 :: b ++ x22 :: s.
Proof. unfold tag_pair. rewrite <- !app_assoc. cbn [app]. rewrite <- app_assoc. reflexivity. Qed.
Lemma lookup_step k n name b s key : tag_key name -> tag_text b ->
  lookupTag (S k) (tag_pair n name b ++ s) key = if bseqb key name then Unquote b else lookupTag k s key.
Proof.
  intros (Nn & Fn) T. rewrite pair_app. cbn [lookupTag]. rewrite skipSpaces_rep.
  - rewrite (spanKey_app _ _ Fn). destruct name as [|c name]; [congruence|]. change (beqb x3a x3a && beqb x22 x22)%bool with true. cbv iota. rewrite (spanQuoted_complete _ _ T). reflexivity.
  - intros r Q. destruct name as [|c name]; [congruence|]. inversion Fn as [|? ? (L & _)]; subst. injection Q as -> _. cbn in L. lia.
Qed.
Lemma pair_len n k b : 0 < length (tag_pair n k b).
Proof. unfold tag_pair. rewrite !app_length. cbn [length]. lia. Qed.
Lemma lookup_complete ps pre key : tag_pairs ps pre -> (forall b', ~ In (key, b') ps) -> forall rest k, length pre <= k -> exists k', k - length pre <= k' /\ lookupTag k (pre ++ rest) key = lookupTag k' rest key.
Proof.
  induction 1 as [|n name b ps s Kn T P IH]; intros Nk rest k L; [exists k; split; [cbn; lia|reflexivity]|]. rewrite app_length in L. pose proof (pair_len n name b) as Lp. destruct k as [|k]; [lia|].
  rewrite <- app_assoc, (lookup_step k n name b _ key Kn T). destruct (bseqb key name) eqn:E; [apply bseqb_true in E; subst; destruct (Nk b (or_introl eq_refl))|].
  destruct (IH (fun b' I => Nk b' (or_intror I)) rest k ltac:(lia)) as (k' & Lk & ->). exists k'. split; [rewrite app_length; lia|reflexivity].
Qed.
Lemma lookup_sound k : forall tag key, length tag < k -> exists o, lookupTag k tag key = Some o /\ forall v, o = Some v -> tag_finds tag key v.
Proof.
  induction k as [|k IH]; intros tag key L; [lia|]. cbn [lookupTag]. destruct (skipSpaces_inv tag) as (n & En & Ns). destruct (spanKey (skipSpaces tag)) as [name rest] eqn:Sp. apply spanKey_inv in Sp as (Es & Fn).
  assert (None' : exists o : option bytes, Some None = Some o /\ forall v, o = Some v -> tag_finds tag key v) by (exists None; split; [reflexivity|discriminate]).
  destruct name as [|c name]; [exact None'|]. destruct rest as [|c1 [|c2 rest]]; [exact None'..|]. destruct (beqb_spec c1 x3a) as [->|_]; [|exact None']. destruct (beqb_spec c2 x22) as [->|_]; [|exact None']. cbn [andb].
  destruct (spanQuoted rest) as [[b rest']|] eqn:Sq; [|exact None']. destruct (spanQuoted_sound _ _ _ _ (le_n _) Sq) as (Er & Tb). assert (Kn : tag_key (c :: name)) by (split; [discriminate|exact Fn]).
  assert (Et : tag = tag_pair n (c :: name) b ++ rest') by (rewrite pair_app, <- Er, <- Es; exact En).
  destruct (bseqb key (c :: name)) eqn:Ek.
  - apply bseqb_true in Ek. destruct (Unquote_iff b) as (o & -> & Uq). exists o. split; [reflexivity|]. intros v Ov. exists [], [], n, b, rest'. rewrite Ek. split; [exact Et|]. split; [constructor|]. split; [intros ? []|]. split; [exact Kn|]. split; [exact Tb|]. apply Uq. exact Ov.
  - destruct (IH rest' key) as (o & Eo & Fo). { rewrite Et in L. rewrite app_length in L. pose proof (pair_len n (c :: name) b). lia. }
    exists o. split; [exact Eo|]. intros v Ov. destruct (Fo v Ov) as (ps & pre & n' & b' & r' & E' & P' & N' & K' & T' & V'). exists ((c :: name, b) :: ps), (tag_pair n (c :: name) b ++ pre), n', b', r'.
    split; [rewrite Et, E', <- app_assoc; reflexivity|]. split; [constructor; auto|]. split; [intros b0 [Q|I]; [injection Q as Q _; rewrite <- Q, bseqb_refl in Ek; discriminate|exact (N' b0 I)]|]. split; [exact K'|]. split; [exact T'|exact V'].
Qed.
Lemma C68_lookup_lem tag key : exists o, StructTag_Lookup tag key = Some o /\ forall v, o = Some v <-> tag_finds tag key v.
Proof.
  unfold StructTag_Lookup. destruct (lookup_sound (S (length tag)) tag key ltac:(lia)) as (o & Eo & Fo). exists o. split; [exact Eo|]. intro v. split; [apply Fo|].
  intros (ps & pre & n & b & rest & Et & P & N & K & T & V). rewrite Et in Eo at 2. assert (Lp : length pre <= S (length tag)) by (rewrite Et, app_length; lia).
  destruct (lookup_complete ps pre key P N (tag_pair n key b ++ rest) (S (length tag)) Lp) as (k' & Lk & Q). rewrite Q in Eo. destruct k' as [|k']. { rewrite Et, app_length in Lk. lia. }
  rewrite (lookup_step k' n key b rest key K T), bseqb_refl in Eo. destruct (Unquote_iff b) as (o' & Eu & Uq). rewrite Eu in Eo. injection Eo as <-. apply Uq. exact V.
Qed.
From Verif Require Import StrThms.

Lemma go_string_len s v : go_string s v -> length v <= length s.
Proof.
  assert (U : forall r, length (utf8 r) <= 4) by (intro r; unfold utf8; destruct (r <? 128)%N, (r <? 2048)%N, (r <? 65536)%N; cbn [length]; lia).
  induction 1 as [|c s v N1 N2 N3 H IH|e b s v Es H IH|a b s v A B H IH|a b c s v A B C Le H IH|a b c d s v A B C D Sc H IH|a b c d a' b' c' d' s v F Sc H IH]; cbn [length] in *; try lia.
  - rewrite app_length. specialize (U (hex4 a b c d)). lia.
  - rewrite app_length. specialize (U (65536 * hex4 a b c d + hex4 a' b' c' d')%N). lia.
Qed.
Lemma valid_split rs : Forall scalar rs -> forall a c s, utf8s rs = a ++ c :: s -> (bN c < 128)%N -> valid_utf8 a /\ valid_utf8 s.
Proof.
  induction 1 as [|r rs Sc F IH]; intros a c s E L; [destruct a; discriminate|]. unfold utf8s in E. cbn [map concat] in E. fold (utf8s rs) in E.
  apply app_eq_app in E as (l & [(Ea & El)|(Ea & El)]).
  - destruct l as [|d l].
    + rewrite app_nil_r in Ea. cbn [app] in El. destruct (IH [] c s) as (_ & V); [symmetry; exact El|exact L|]. split; [exists [r]; split; [constructor; auto|unfold utf8s; cbn [map concat]; rewrite app_nil_r; auto]|exact V].
    + cbn [app] in El. injection El as <- ->. destruct (N.ltb_spec r 128) as [Lr|Lr].
      * assert (Ur : utf8 r = [Nb r]) by (unfold utf8; destruct (N.ltb_spec r 128); [reflexivity|lia]). rewrite Ur in Ea. destruct a as [|x a]; [|injection Ea as _ Ea; destruct a; discriminate]. cbn [app] in Ea. injection Ea as _ <-.
        split; [exists []; split; [constructor|reflexivity]|exists rs; auto].
      * pose proof (high_bytes r Lr Sc) as Hb. rewrite Ea in Hb. apply Forall_app in Hb as (_ & Hb). inversion Hb. lia.
  - destruct (IH l c s El L) as ((rl & Fl & ->) & V). split; [|exact V]. exists (r :: rl). split; [constructor; auto|rewrite Ea; reflexivity].
Qed.
Lemma value_short tag key v : valid_utf8 tag -> tag_finds tag key v -> length v <= length tag.
Proof.
  intros (rt & Ft & Et) (ps & pre & n & b & rest & E & P & N & K & T & (rs & R & G)). apply go_string_len in G.
  assert (Vb : valid_utf8 b).
  { rewrite Et, pair_app in E. assert (E' : utf8s rt = (pre ++ repeat x20 n ++ key ++ [x3a]) ++ x22 :: (b ++ x22 :: rest)) by (rewrite E, <- !app_assoc; reflexivity).
    destruct (valid_split rt Ft _ _ _ E' ltac:(cbn; lia)) as (_ & (r2 & F2 & E2)). symmetry in E2. destruct (valid_split r2 F2 _ _ _ E2 ltac:(cbn; lia)) as (V & _). exact V. }
  destruct Vb as (rb & Fb & Eb). pose proof (runes_valid rb Fb) as R'. rewrite <- Eb in R'. rewrite (runes_det _ _ _ R R'), <- Eb in G.
  assert (length b <= length tag) by (rewrite E, pair_app, !app_length; cbn [length]; rewrite app_length; lia). lia.
Qed.
Lemma C68_field_lem o fname tag key p ps : valid_utf8 tag -> Forall no_comma (p :: ps) -> tag_finds tag key (join x2c (p :: ps)) ->
  parseFieldOf o fname tag key = Some (match p with [] => fname | _ => p end, if o then N.lor (bits ps) 4 else bits ps, true).
Proof.
  intros V F T. unfold parseFieldOf. destruct (C68_lookup_lem tag key) as (r & -> & L). rewrite (proj2 (L _) T). apply parseField_lem; [exact F|]. eapply value_short; eauto.
Qed.
Lemma C68_untagged_lem o fname tag key : (forall v, ~ tag_finds tag key v) -> parseFieldOf o fname tag key = Some (fname, if o then 4%N else 0%N, false).
Proof.
  intro N. unfold parseFieldOf. destruct (C68_lookup_lem tag key) as (r & -> & L). destruct r as [v|]; [destruct (N v (proj1 (L v) eq_refl))|]. apply parseField_none.
Qed.
Lemma prefixOf_iff p : forall s, prefixOf p s = true <-> exists b, s = p ++ b.
Proof.
  induction p as [|c p IH]; intro s; [destruct s; (split; [intros _; eexists; reflexivity|reflexivity])|]. destruct s as [|d s]; cbn [prefixOf app]; [split; [discriminate|intros (b & Q); discriminate]|]. rewrite andb_true_iff, IH. split.
  - intros (Q & b & ->). exists b. destruct (beqb_spec c d); [subst; reflexivity|discriminate].
  - intros (b & Q). injection Q as -> ->. split; [destruct (beqb_spec c c); congruence|eauto].
Qed.
Lemma Index_iff p s : (exists i, Index s p = Some i) <-> occurs_in p s.
Proof.
  induction s as [|c s IH]; cbn [Index].
  - destruct (prefixOf p []) eqn:P.
    + apply prefixOf_iff in P as (b & P). split; [intros _; exists [], b; exact P|eauto].
    + split; [intros (i & Q); discriminate|]. intros (a & b & Q). assert (prefixOf p [] = true); [|congruence]. apply prefixOf_iff. destruct a; [|discriminate]. exists b. exact Q.
  - destruct (prefixOf p (c :: s)) eqn:P.
    + apply prefixOf_iff in P as (b & P). split; [intros _; exists [], b; exact P|eauto].
    + split.
      * intros (i & Q). destruct (Index s p) as [j|]; [|discriminate]. destruct (proj1 IH (ex_intro _ j eq_refl)) as (a & b & ->). exists (c :: a), b. reflexivity.
      * intros (a & b & Q). destruct a as [|c' a]; [assert (prefixOf p (c :: s) = true) by (apply prefixOf_iff; exists b; exact Q); congruence|]. injection Q as <- ->. destruct (proj2 IH (ex_intro _ a (ex_intro _ b eq_refl))) as (i & ->). exists (S i). reflexivity.
Qed.
Lemma occurs_comma w q t : ~ In x2c w -> occurs_in w (q ++ x2c :: t) <-> occurs_in w q \/ occurs_in w t.
Proof.
  intro N. split.
  - intros (a & b & E). apply app_eq_app in E as (l & [(Ea & El)|(Ea & El)]).
    + (* q = a ++ l *) apply app_eq_app in El as (l' & [(Eb & El')|(Eb & El')]).
      * destruct l' as [|x l']; [left; exists a, []; rewrite Ea, Eb, !app_nil_r; reflexivity|]. injection El' as <- _. destruct N. rewrite Eb. apply in_elt.
      * left. exists a, l'. rewrite Ea, Eb. reflexivity.
    + destruct l as [|x l]; [|injection El as <- ->; right; exists l, b; reflexivity]. cbn [app] in El. destruct w as [|y w]; [left; exists q, []; rewrite app_nil_r; reflexivity|]. injection El as <- _. destruct N. left. reflexivity.
  - intros [(a & b & ->)|(a & b & ->)]; [exists a, (b ++ x2c :: t); rewrite <- !app_assoc; reflexivity|exists (q ++ x2c :: a), b; rewrite <- app_assoc; reflexivity].
Qed.
Lemma occurs_rest w ps : w <> [] -> ~ In x2c w -> occurs_in w (rest ps) <-> exists q, In q ps /\ occurs_in w q.
Proof.
  intros Nw N. induction ps as [|q ps IH].
  - split; [intros (a & b & E); destruct a, w; try discriminate; congruence|intros (q & [] & _)].
  - assert (Em : ~ occurs_in w []) by (intros (a & b & E); destruct a, w; try discriminate; congruence).
    assert (Q : occurs_in w (rest (q :: ps)) <-> occurs_in w q \/ occurs_in w (rest ps)).
    { change (rest (q :: ps)) with ([] ++ x2c :: (q ++ rest ps)). rewrite occurs_comma by exact N. destruct ps as [|q' ps].
      - change (rest []) with (@nil byte). rewrite app_nil_r. tauto.
      - change (rest (q' :: ps)) with ([] ++ x2c :: (q' ++ rest ps)) at 2. cbn [app]. change (rest (q' :: ps)) with (x2c :: (q' ++ rest ps)). rewrite occurs_comma by exact N. rewrite (occurs_comma w [] (q' ++ rest ps) N). tauto. }
    rewrite Q, IH. split; [intros [O|(q' & I & O)]; [exists q; split; [left; reflexivity|exact O]|exists q'; split; [right; exact I|exact O]]|intros (q' & [<-|I] & O); [left; exact O|right; exists q'; auto]].
Qed.
Definition keyOr (key : bytes) : bytes := match key with [] => str "json" | _ => key end.
Lemma C68_generator_lem tag key p ps : Forall no_comma (p :: ps) -> tag_finds tag (keyOr key) (join x2c (p :: ps)) -> join x2c (p :: ps) <> str "-" ->
  exists om, ParseFieldTag tag key = Some (p, om, true) /\ (om = true <-> exists q, In q ps /\ occurs_in (str "omitempty") q).
Proof.
  intros F T Nd. unfold ParseFieldTag. fold (keyOr key). destruct (C68_lookup_lem tag (keyOr key)) as (r & -> & L). rewrite (proj2 (L _) T).
  destruct (bseqb (join x2c (p :: ps)) (str "-")) eqn:E; [apply bseqb_true in E; contradiction|]. rewrite join_rest. inversion F as [|? ? Np Fs]; subst.
  assert (Oc : occurs_in (str "omitempty") (rest ps) <-> exists q, In q ps /\ occurs_in (str "omitempty") q) by (apply occurs_rest; [discriminate|cbn; intuition discriminate]).
  destruct ps as [|q ps].
  - change (rest []) with (@nil byte). rewrite app_nil_r, (index_none p Np). exists false. split; [reflexivity|]. split; [discriminate|]. intros (q & [] & _).
  - change (rest (q :: ps)) with (x2c :: (q ++ rest ps)) in *. rewrite (index_at p _ Np), firstn_app, skipn_app, Nat.sub_diag, firstn_all, skipn_all. cbn [firstn skipn app]. rewrite app_nil_r.
    eexists. split; [reflexivity|]. rewrite <- Oc, <- Index_iff. cbn [Index]. change (prefixOf (str "omitempty") (x2c :: q ++ rest ps)) with false. cbv iota. destruct (Index (q ++ rest ps) (str "omitempty")) as [j|]; cbn [option_map]; [split; [eauto|reflexivity]|split; [discriminate|intros (i & Q); discriminate]].
Qed.
Lemma C68_dash_lem tag key : tag_finds tag (keyOr key) (str "-") -> ParseFieldTag tag key = Some (str "-", false, false).
Proof. intro T. unfold ParseFieldTag. fold (keyOr key). destruct (C68_lookup_lem tag (keyOr key)) as (r & -> & L). rewrite (proj2 (L _) T). reflexivity. Qed.
Lemma C68_none_lem tag key : (forall v, ~ tag_finds tag (keyOr key) v) -> ParseFieldTag tag key = Some ([], false, false).
Proof. intro N. unfold ParseFieldTag. fold (keyOr key). destruct (C68_lookup_lem tag (keyOr key)) as (r & -> & L). destruct r as [v|]; [destruct (N v (proj1 (L v) eq_refl))|reflexivity]. Qed.
(* A struct tag with three pairs. *)
Definition ex_tag : bytes := str "xml:""a"" json:""é,omitempty"" json:""b""".
Lemma ex_tag_finds : tag_finds ex_tag (str "json") (utf8 233 ++ str ",omitempty").
Proof. destruct (C68_lookup_lem ex_tag (str "json")) as (r & E & L). apply L. vm_compute in E. injection E as <-. reflexivity. Qed.
Lemma C68_hint_refuted_lem : exists tag p ps, Forall no_comma (p :: ps) /\ tag_finds tag (str "json") (join x2c (p :: ps)) /\ has (str "omitempty") ps = false /\ ParseFieldTag tag [] = Some (p, true, true).
Proof.
  exists (str "json:""a,noomitempty"""), (str "a"), [str "noomitempty"]. split; [repeat constructor; unfold no_comma; cbn; intuition discriminate|]. split.
  - destruct (C68_lookup_lem (str "json:""a,noomitempty""") (str "json")) as (r & E & L). apply L. vm_compute in E. injection E as <-. reflexivity.
  - split; vm_compute; reflexivity.
Qed.
(* ten bytes that are not UTF-8 *)
Lemma C68_long_lem : exists tag p ps, Forall no_comma (p :: ps) /\ tag_finds tag (str "json") (join x2c (p :: ps)) /\
  parseFieldOf false (str "A") tag (str "json") <> Some (p, bits ps, true).
Proof.
  exists (str "json:""" ++ repeat xff 10 ++ str ",omitempty"""), (concat (repeat (utf8 65533) 10)), [str "omitempty"]. split; [repeat constructor; unfold no_comma; vm_compute; intuition discriminate|]. split.
  - destruct (C68_lookup_lem (str "json:""" ++ repeat xff 10 ++ str ",omitempty""") (str "json")) as (r & E & L). apply L. vm_compute in E. injection E as <-. vm_compute. reflexivity.
  - vm_compute. discriminate.
Qed.
