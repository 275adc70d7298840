(* Lemmas for C45. *)
From Verif Require Import Bytes JsonSpec OptSpec Options Utf8Proofs.

Lemma index_none p : no_comma p -> IndexByte p x2c = None.
Proof.
  induction p as [|c p IH]; intro H; [reflexivity|]. cbn [IndexByte]. destruct (beqb c x2c) eqn:E.
  - apply beqb_true in E. subst. destruct H. left. reflexivity.
  - rewrite IH; [reflexivity|]. intro K. apply H. right. exact K.
Qed.
Lemma index_at p r : no_comma p -> IndexByte (p ++ x2c :: r) x2c = Some (length p).
Proof.
  induction p as [|c p IH]; intro H; cbn [app IndexByte length]; [rewrite beqb_refl; reflexivity|]. destruct (beqb c x2c) eqn:E.
  - apply beqb_true in E. subst. destruct H. left. reflexivity.
  - rewrite IH; [reflexivity|]. intro K. apply H. right. exact K.
Qed.
(* the tag after its name *)
Definition rest (ps : list bytes) : bytes := concat (map (fun p => x2c :: p) ps).
Lemma join_rest p ps : join x2c (p :: ps) = p ++ rest ps.
Proof.
  revert p. induction ps as [|q ps IH]; intro p; [cbn; rewrite ?app_nil_r; reflexivity|].
  change (join x2c (p :: q :: ps)) with (p ++ x2c :: join x2c (q :: ps)). rewrite IH. reflexivity.
Qed.
Lemma bits_nil : bits [] = 0%N. Proof. reflexivity. Qed.
Lemma hint_lor h ps : N.lor (hintBits h) (bits ps) = bits (h :: ps).
Proof.
  unfold hintBits, bits, has. cbn [existsb].
  assert (S : forall a b, bseqb a b = bseqb b a). { intros a b. destruct (bseqb a b) eqn:E, (bseqb b a) eqn:F; auto; [apply bseqb_true in E|apply bseqb_true in F]; subst; rewrite bseqb_refl in *; congruence. }
  rewrite (S (str "8bit") h), (S (str "html") h), (S (str "omitempty") h).
  destruct (bseqb h (str "omitempty")) eqn:E1; [apply bseqb_true in E1; subst; destruct (existsb _ ps), (existsb _ ps), (existsb _ ps); reflexivity|].
  destruct (bseqb h (str "8bit")) eqn:E2; [apply bseqb_true in E2; subst; destruct (existsb _ ps), (existsb _ ps), (existsb _ ps); reflexivity|].
  destruct (bseqb h (str "html")) eqn:E3; destruct (existsb _ ps), (existsb _ ps), (existsb _ ps); reflexivity.
Qed.
Lemma hints_loop ps : Forall no_comma ps -> forall fuel h, length (rest ps) <= fuel -> parseHintsLoop fuel (rest ps) h = Some (N.lor h (bits ps)).
Proof.
  induction 1 as [|p ps Hp F IH]; intros fuel h L.
  - destruct fuel; cbn; rewrite N.lor_0_r; reflexivity.
  - change (rest (p :: ps)) with (x2c :: p ++ rest ps) in *. destruct fuel as [|k]; [cbn in L; lia|]. cbn [parseHintsLoop]. cbn [length] in L. rewrite app_length in L.
    destruct ps as [|q ps].
    + cbn [rest map concat]. rewrite app_nil_r, (index_none p Hp). destruct k; cbn [parseHintsLoop]; rewrite <- hint_lor, bits_nil, N.lor_0_r; reflexivity.
    + change (rest (q :: ps)) with (x2c :: q ++ rest ps) at 1 2 3. rewrite (index_at p _ Hp), firstn_app, skipn_app, Nat.sub_diag, firstn_all, skipn_all. cbn [firstn skipn app]. rewrite app_nil_r.
      change (x2c :: q ++ rest ps) with (rest (q :: ps)). rewrite IH by lia. rewrite <- N.lor_assoc, hint_lor. reflexivity.
Qed.
Lemma parseTag_lem tag p ps : Forall no_comma (p :: ps) -> length (join x2c (p :: ps)) <= length tag ->
  parseTag tag (Some (join x2c (p :: ps))) = Some (p, bits ps, true).
Proof.
  intros F L. inversion F as [|? ? Hp Fp]; subst. rewrite join_rest in *. unfold parseTag. destruct ps as [|q ps].
  - cbn [rest map concat]. rewrite app_nil_r, (index_none p Hp). reflexivity.
  - change (rest (q :: ps)) with (x2c :: q ++ rest ps) at 1 2 3. rewrite (index_at p _ Hp). rewrite app_length in L. cbn [rest map concat app length] in L.
    destruct (Nat.ltb_spec (length p) (length tag)); [|lia]. rewrite firstn_app, skipn_app, Nat.sub_diag, firstn_all, skipn_all. cbn [firstn skipn app]. rewrite app_nil_r.
    change (x2c :: q ++ rest ps) with (rest (q :: ps)). unfold parseHints. rewrite (hints_loop _ Fp) by lia. reflexivity.
Qed.
Lemma parseField_lem o fname tag p ps : Forall no_comma (p :: ps) -> length (join x2c (p :: ps)) <= length tag ->
  parseField o fname tag (Some (join x2c (p :: ps))) = Some (match p with [] => fname | _ => p end, if o then N.lor (bits ps) 4 else bits ps, true).
Proof. intros F L. unfold parseField. rewrite (parseTag_lem tag p ps F L). reflexivity. Qed.
Lemma parseField_none o fname tag : parseField o fname tag None = Some (fname, if o then 4%N else 0%N, false).
Proof. destruct o; reflexivity. Qed.
Lemma split_once v : exists p ps, Forall no_comma (p :: ps) /\ v = join x2c (p :: ps).
Proof.
  induction v as [|c v (p & ps & F & ->)]; [exists [], []; split; [constructor; [intros []|constructor]|reflexivity]|].
  inversion F as [|? ? Hp Fp]; subst. destruct (beqb c x2c) eqn:E.
  - apply beqb_true in E. subst. exists [], (p :: ps). split; [constructor; [intros []|exact F]|reflexivity].
  - apply beqb_false in E. exists (c :: p), ps. split; [|rewrite !join_rest; reflexivity]. constructor; auto. intros [K|K]; auto.
Qed.
Lemma split_unique p ps p' ps' : Forall no_comma (p :: ps) -> Forall no_comma (p' :: ps') -> join x2c (p :: ps) = join x2c (p' :: ps') -> p :: ps = p' :: ps'.
Proof.
  revert p p' ps'. induction ps as [|q ps IH]; intros p p' ps' F F' E; rewrite !join_rest in E; inversion F as [|? ? Hp Fp]; inversion F' as [|? ? Hp' Fp']; subst.
  - destruct ps' as [|q' ps']; cbn [rest map concat app] in E; rewrite ?app_nil_r in E; [subst; reflexivity|]. exfalso. apply Hp. rewrite E. apply in_or_app. right. left. reflexivity.
  - destruct ps' as [|q' ps']; cbn [rest map concat app] in E; rewrite ?app_nil_r in E; [exfalso; apply Hp'; rewrite <- E; apply in_or_app; right; left; reflexivity|].
    pose proof (index_at p (q ++ rest ps) Hp) as I1. pose proof (index_at p' (q' ++ rest ps') Hp') as I2. unfold rest in I1, I2. rewrite E in I1. rewrite I1 in I2. injection I2 as L.
    assert (Ep : p = p'). { apply (f_equal (firstn (length p))) in E. rewrite !firstn_app, Nat.sub_diag, firstn_all in E. rewrite L, Nat.sub_diag, firstn_all in E. cbn in E. rewrite !app_nil_r in E. exact E. }
    subst p'. f_equal. apply app_inv_head in E. injection E as E. apply IH; auto. rewrite !join_rest. exact E.
Qed.
Definition long_tag : bytes := str "json:" ++ [x22] ++ repeat x80 20 ++ str ",html" ++ [x22].
Lemma C45_long_lem : exists tag p ps, Forall no_comma (p :: ps) /\ parseTag tag (Some (join x2c (p :: ps))) <> Some (p, bits ps, true).
Proof.
  exists long_tag, (concat (repeat [xef; xbf; xbd] 20)), [str "html"]. split; [|vm_compute; discriminate].
  repeat constructor; intro K; vm_compute in K; repeat (destruct K as [K|K]; [discriminate|]); exact K.
Qed.
Lemma split_exists_unique v : exists p ps, Forall no_comma (p :: ps) /\ v = join x2c (p :: ps) /\
  forall p' ps', Forall no_comma (p' :: ps') -> v = join x2c (p' :: ps') -> p' :: ps' = p :: ps.
Proof.
  destruct (split_once v) as (p & ps & F & E). exists p, ps. split; auto. split; auto. intros p' ps' F' E'. apply split_unique; auto. congruence.
Qed.
