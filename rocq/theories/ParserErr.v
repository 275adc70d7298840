(* Termination, error positions, stability under extension and completability of the parser model. *)
From Verif Require Import Bytes Tables Types JsonSpec Parser LexProofs ParserProofs.

(* ---- termination ---- *)

Lemma value_nonempty v w : len_value v w -> w <> [].
Proof. intro H. apply lenient_value_start in H as (c & r & -> & _). discriminate. Qed.

Lemma value_ok_shorter f ns s pos ns' pos' rest :
  parseValue f ns s pos = POk ns' pos' rest -> length rest < length s.
Proof.
  intro H. apply parse_sound in H as (s1 & w & v & -> & _ & Hv & _).
  apply value_nonempty in Hv. destruct w; [congruence|]. repeat (rewrite app_length; simpl). lia.
Qed.

Definition terminates_at (fuel : nat) : Prop :=
  (forall ns s pos, 3 * length s + 1 <= fuel -> parseValue fuel ns s pos <> PFuel) /\
  (forall ns s pos, 3 * length s + 3 <= fuel -> parseArray fuel ns s pos <> PFuel) /\
  (forall ns id acc s pos, 3 * length s + 2 <= fuel -> arrayValue fuel ns id acc s pos <> PFuel) /\
  (forall ns s pos, 3 * length s + 3 <= fuel -> parseObject fuel ns s pos <> PFuel) /\
  (forall ns id acc s pos, 3 * length s + 2 <= fuel -> objectKey fuel ns id acc s pos <> PFuel).

Lemma readLiteral_nofuel ns i t l s pos : readLiteral ns i t l s pos <> PFuel.
Proof.
  unfold readLiteral, pdone. destruct (_ <=? _); [|discriminate]. destruct (bseqb _ _); discriminate.
Qed.

Lemma skipSpace_length s pos s' pos' : skipSpace s pos = (s', pos') -> length s' <= length s.
Proof. intro H. apply skipSpace_spec in H as (w & -> & _). rewrite app_length. lia. Qed.

Lemma parse_terminates : forall fuel, terminates_at fuel.
Proof.
  induction fuel as [|f (IHv & IHa & IHe & IHo & IHm)].
  { repeat split; intros; exfalso; lia. }
  repeat split.
  - intros ns s pos Hf.
    destruct (skipSpace s pos) as [s1 pos1] eqn:Esk.
    pose proof (skipSpace_length _ _ _ _ Esk) as Hl.
    destruct s1 as [|c r]; [erewrite pv_eof by eauto; discriminate|]. simpl in Hl.
    destruct (start_byte c) eqn:Ec; [|erewrite pv_bad by eauto; discriminate].
    apply start_cases in Ec as [->|[->|[->|[->|[->|[->|Hd]]]]]].
    + erewrite pv_str by eauto. unfold pdone. destruct (readString r); discriminate.
    + erewrite pv_arr by eauto. apply IHa. lia.
    + erewrite pv_obj by eauto. apply IHo. lia.
    + erewrite pv_true by eauto. apply readLiteral_nofuel.
    + erewrite pv_false by eauto. apply readLiteral_nofuel.
    + erewrite pv_null by eauto. apply readLiteral_nofuel.
    + erewrite pv_num by eauto. discriminate.
  - intros ns s pos Hf. cbn [parseArray].
    destruct (skipSpace s pos) as [s1 pos1] eqn:Esk. apply skipSpace_length in Esk.
    destruct s1 as [|c r]; [discriminate|]. destruct (beqb c delimEndArray); [discriminate|].
    apply IHe. lia.
  - intros ns id acc s pos Hf. cbn [arrayValue].
    destruct (parseValue f ns s pos) as [ns1 p1 t1| |] eqn:Ev; try discriminate.
    + apply value_ok_shorter in Ev.
      destruct (skipSpace t1 p1) as [s2 pos2] eqn:Esk. apply skipSpace_length in Esk.
      destruct s2 as [|c r]; [discriminate|]. simpl in Esk.
      destruct (beqb c delimValueSeparator); [apply IHe; lia|].
      destruct (beqb c delimEndArray); discriminate.
    + exfalso. apply IHv in Ev; auto. lia.
  - intros ns s pos Hf. cbn [parseObject].
    destruct (skipSpace s pos) as [s1 pos1] eqn:Esk. apply skipSpace_length in Esk.
    destruct s1 as [|c r]; [discriminate|]. simpl in Esk. destruct (beqb c delimEndObject); [discriminate|].
    destruct (beqb c delimString); [|discriminate]. apply IHm. lia.
  - intros ns id acc s pos Hf. cbn [objectKey].
    destruct (scanQuote s 0) as [i|]; [|discriminate].
    destruct (skipSpace (skipn (S i) s) _) as [s1 pos1] eqn:Esk. apply skipSpace_length in Esk.
    rewrite skipn_length in Esk.
    destruct s1 as [|c r]; [discriminate|]. simpl in Esk.
    destruct (beqb c delimNameSeparator); [|discriminate].
    destruct (parseValue f ns r _) as [ns1 p1 t1| |] eqn:Ev; try discriminate.
    + apply value_ok_shorter in Ev.
      destruct (skipSpace t1 p1) as [s2 pos2] eqn:Esk2. apply skipSpace_length in Esk2.
      destruct s2 as [|c2 r2]; [discriminate|]. simpl in Esk2.
      destruct (beqb c2 delimValueSeparator).
      * destruct (skipSpace r2 _) as [s3 pos3] eqn:Esk3. apply skipSpace_length in Esk3.
        destruct s3 as [|c3 r3]; [discriminate|]. simpl in Esk3.
        destruct (beqb c3 delimString); [apply IHm; lia | discriminate].
      * destruct (beqb c2 delimEndObject); discriminate.
    + exfalso. apply IHv in Ev; auto. lia.
Qed.

(* ---- more fuel does not change a result ---- *)

Definition mono_at (f : nat) : Prop :=
  (forall ns s pos, parseValue f ns s pos <> PFuel ->
     parseValue (S f) ns s pos = parseValue f ns s pos) /\
  (forall ns s pos, parseArray f ns s pos <> PFuel ->
     parseArray (S f) ns s pos = parseArray f ns s pos) /\
  (forall ns id acc s pos, arrayValue f ns id acc s pos <> PFuel ->
     arrayValue (S f) ns id acc s pos = arrayValue f ns id acc s pos) /\
  (forall ns s pos, parseObject f ns s pos <> PFuel ->
     parseObject (S f) ns s pos = parseObject f ns s pos) /\
  (forall ns id acc s pos, objectKey f ns id acc s pos <> PFuel ->
     objectKey (S f) ns id acc s pos = objectKey f ns id acc s pos).

Lemma parse_mono : forall f, mono_at f.
Proof.
  induction f as [|f (IHv & IHa & IHe & IHo & IHm)].
  { repeat split; simpl; intros; congruence. }
  repeat split.
  - intros ns s pos H. remember (S f) as g. rewrite Heqg in H |- * at 2.
    destruct (skipSpace s pos) as [s1 pos1] eqn:Esk.
    destruct s1 as [|c r]; [do 2 erewrite pv_eof by eauto; reflexivity|].
    destruct (start_byte c) eqn:Ec; [|do 2 erewrite pv_bad by eauto; reflexivity].
    apply start_cases in Ec as [->|[->|[->|[->|[->|[->|Hd]]]]]].
    + do 2 erewrite pv_str by eauto; reflexivity.
    + erewrite pv_arr in H by eauto. do 2 erewrite pv_arr by eauto. subst g. auto.
    + erewrite pv_obj in H by eauto. do 2 erewrite pv_obj by eauto. subst g. auto.
    + do 2 erewrite pv_true by eauto; reflexivity.
    + do 2 erewrite pv_false by eauto; reflexivity.
    + do 2 erewrite pv_null by eauto; reflexivity.
    + do 2 erewrite pv_num by eauto; reflexivity.
  - intros ns s pos H. remember (S f) as g. rewrite Heqg in H |- * at 2. cbn [parseArray] in *.
    destruct (skipSpace s pos) as [s1 pos1].
    destruct s1 as [|c r]; auto. destruct (beqb c delimEndArray); subst g; auto.
  - intros ns id acc s pos H. remember (S f) as g. rewrite Heqg in H |- * at 2. cbn [arrayValue] in *.
    assert (parseValue f ns s pos <> PFuel) as Hv by (intro E; rewrite E in H; congruence).
    subst g. rewrite (IHv _ _ _ Hv).
    destruct (parseValue f ns s pos) as [ns1 p1 t1| |]; auto.
    destruct (skipSpace t1 p1) as [s2 pos2]. destruct s2 as [|c r]; auto.
    destruct (beqb c delimValueSeparator); auto.
  - intros ns s pos H. remember (S f) as g. rewrite Heqg in H |- * at 2. cbn [parseObject] in *.
    destruct (skipSpace s pos) as [s1 pos1].
    destruct s1 as [|c r]; auto. destruct (beqb c delimEndObject); auto.
    destruct (beqb c delimString); subst g; auto.
  - intros ns id acc s pos H. remember (S f) as g. rewrite Heqg in H |- * at 2. cbn [objectKey] in *.
    destruct (scanQuote s 0) as [i|]; auto.
    destruct (skipSpace (skipn (S i) s) _) as [s1 pos1]. destruct s1 as [|c r]; auto.
    destruct (beqb c delimNameSeparator); auto.
    assert (parseValue f ns r (pos1 + 1) <> PFuel) as Hv by (intro E; rewrite E in H; congruence).
    subst g. rewrite (IHv _ _ _ Hv).
    destruct (parseValue f ns r (pos1 + 1)) as [ns1 p1 t1| |]; auto.
    destruct (skipSpace t1 p1) as [s2 pos2]. destruct s2 as [|c2 r2]; auto.
    destruct (beqb c2 delimValueSeparator); auto.
    destruct (skipSpace r2 _) as [s3 pos3]. destruct s3 as [|c3 r3]; auto.
    destruct (beqb c3 delimString); auto.
Qed.

Lemma parseValue_mono f f' ns s pos :
  parseValue f ns s pos <> PFuel -> f <= f' -> parseValue f' ns s pos = parseValue f ns s pos.
Proof.
  intros H. induction 1 as [|g Hg IH]; auto.
  rewrite (proj1 (parse_mono g)); rewrite IH; auto.
Qed.

(* ---- error positions ---- *)

(* The token reported by a ParseError is the text at its position. *)
Definition token_at (got : token) (v : bytes) : Prop :=
  match got with
  | GotByte c => exists r, v = c :: r
  | GotStr w => w <> [] /\ exists r, v = w ++ r
  end.

Definition err_at (s : bytes) (pos p : N) (got : token) : Prop :=
  exists u v, s = u ++ v /\ p = (pos + lenN u)%N /\ token_at got v.

Lemma err_at_app u s pos p got : err_at s (pos + lenN u) p got -> err_at (u ++ s) pos p got.
Proof.
  intros (a & v & -> & -> & H). exists (u ++ a), v. rewrite <- app_assoc. repeat split; auto.
  rewrite lenN_app. lia.
Qed.

Lemma err_at_cons c s pos p got : err_at s (pos + 1) p got -> err_at (c :: s) pos p got.
Proof. intro H. apply (err_at_app [c]). exact H. Qed.

Lemma err_at_here c r pos : err_at (c :: r) pos pos (GotByte c).
Proof. exists [], (c :: r). split; [reflexivity|]. split; [len|]. exists r; reflexivity. Qed.

Lemma readLiteral_err ns info typ lit s pos p ty got want :
  lit <> [] -> readLiteral ns info typ lit s pos = PErr (ParseError p ty got want) ->
  err_at s pos p got.
Proof.
  intro Hlit. unfold readLiteral, pdone. destruct (length lit <=? length s) eqn:El; [|discriminate].
  destruct (bseqb _ _); [discriminate|]. injection 1 as <- <- <- <-.
  exists [], s. split; [reflexivity|]. split; [len|].
  split; [|exists (skipn (length lit) s); symmetry; apply firstn_skipn].
  apply Nat.leb_le in El. intro E. apply (f_equal (@length byte)) in E. rewrite firstn_length in E.
  destruct lit; [congruence|]. cbn [length] in *; lia.
Qed.

Definition errs_at (f : nat) : Prop :=
  (forall ns s pos p ty got want, parseValue f ns s pos = PErr (ParseError p ty got want) -> err_at s pos p got) /\
  (forall ns s pos p ty got want, parseArray f ns s pos = PErr (ParseError p ty got want) -> err_at s pos p got) /\
  (forall ns id acc s pos p ty got want, arrayValue f ns id acc s pos = PErr (ParseError p ty got want) -> err_at s pos p got) /\
  (forall ns s pos p ty got want, parseObject f ns s pos = PErr (ParseError p ty got want) -> err_at s pos p got) /\
  (forall ns id acc s pos p ty got want, objectKey f ns id acc s pos = PErr (ParseError p ty got want) -> err_at s (pos) p got).

Lemma parse_errs : forall f, errs_at f.
Proof.
  induction f as [|f (IHv & IHa & IHe & IHo & IHm)].
  { repeat split; simpl; intros; discriminate. }
  repeat split.
  - intros ns s pos p ty got want H.
    destruct (skipSpace s pos) as [s1 pos1] eqn:Esk.
    pose proof Esk as Esk'. apply skipSpace_spec in Esk' as (u & -> & Hu & -> & Hn).
    apply err_at_app.
    destruct s1 as [|c r]; [erewrite pv_eof in H by eauto; discriminate|].
    destruct (start_byte c) eqn:Ec.
    2:{ erewrite pv_bad in H by eauto; injection H as <- <- <- <-. apply err_at_here. }
    apply start_cases in Ec as [->|[->|[->|[->|[->|[->|Hd]]]]]].
    + erewrite pv_str in H by eauto. unfold pdone in H. destruct (readString r); discriminate.
    + erewrite pv_arr in H by eauto. apply err_at_cons. eauto.
    + erewrite pv_obj in H by eauto. apply err_at_cons. eauto.
    + erewrite pv_true in H by eauto. eapply readLiteral_err; eauto. discriminate.
    + erewrite pv_false in H by eauto. eapply readLiteral_err; eauto. discriminate.
    + erewrite pv_null in H by eauto. eapply readLiteral_err; eauto. discriminate.
    + erewrite pv_num in H by eauto. discriminate.
  - intros ns s pos p ty got want H. cbn [parseArray] in H.
    destruct (skipSpace s pos) as [s1 pos1] eqn:Esk.
    apply skipSpace_spec in Esk as (u & -> & Hu & -> & Hn). apply err_at_app.
    destruct s1 as [|c r]; [discriminate|]. destruct (beqb c delimEndArray); [discriminate|]. eauto.
  - intros ns id acc s pos p ty got want H. cbn [arrayValue] in H.
    destruct (parseValue f ns s pos) as [ns1 p1 t1|e|] eqn:Ev; try discriminate.
    + apply parse_sound in Ev as (s1 & w & v & -> & Hs1 & Hv & Hst & -> & ->).
      apply err_at_app, err_at_app.
      destruct (skipSpace t1 (pos + lenN s1 + lenN w)) as [s2 pos2] eqn:Esk.
      apply skipSpace_spec in Esk as (u & -> & Hu & -> & Hn). apply err_at_app.
      destruct s2 as [|c r]; [discriminate|].
      destruct (beqb c delimValueSeparator); [apply err_at_cons; eauto|].
      destruct (beqb c delimEndArray); [discriminate|]. injection H as <- <- <- <-. apply err_at_here.
    + injection H as ->. eauto.
  - intros ns s pos p ty got want H. cbn [parseObject] in H.
    destruct (skipSpace s pos) as [s1 pos1] eqn:Esk.
    apply skipSpace_spec in Esk as (u & -> & Hu & -> & Hn). apply err_at_app.
    destruct s1 as [|c r]; [discriminate|]. destruct (beqb c delimEndObject); [discriminate|].
    destruct (beqb c delimString); [apply err_at_cons; eauto|].
    injection H as <- <- <- <-. apply err_at_here.
  - intros ns id acc s pos p ty got want H. cbn [objectKey] in H.
    destruct (scanQuote s 0) as [i|] eqn:Eq; [|discriminate].
    apply scanQuote_spec in Eq as (k & b & -> & Hk & <-).
    rewrite (app_cons_assoc k x22 b), skipn_app_exact in H by (rewrite app_length; simpl; lia).
    rewrite (app_cons_assoc k x22 b). apply err_at_app.
    replace (pos + lenN (k ++ [x22]))%N with (pos + 1 + N.of_nat (length k))%N by len.
    destruct (skipSpace b (pos + 1 + N.of_nat (length k))) as [s2 pos2] eqn:Esk.
    apply skipSpace_spec in Esk as (u & -> & Hu & -> & Hn). apply err_at_app.
    destruct s2 as [|c r]; [discriminate|].
    destruct (beqb c delimNameSeparator).
    2:{ injection H as <- <- <- <-. apply err_at_here. }
    apply err_at_cons.
    destruct (parseValue f ns r _) as [ns1 p1 t1|e|] eqn:Ev; try discriminate.
    + apply parse_sound in Ev as (s1 & w & v & -> & Hs1 & Hv & Hst & -> & ->).
      apply err_at_app, err_at_app.
      destruct (skipSpace t1 _) as [s3 pos3] eqn:Esk in H.
      apply skipSpace_spec in Esk as (u' & -> & Hu' & -> & Hn'). apply err_at_app.
      destruct s3 as [|c3 r3]; [discriminate|].
      destruct (beqb c3 delimValueSeparator).
      * apply err_at_cons. destruct (skipSpace r3 _) as [s4 pos4] eqn:Esk in H.
        apply skipSpace_spec in Esk as (u2 & -> & Hu2 & -> & Hn2). apply err_at_app.
        destruct s4 as [|c4 r4]; [discriminate|].
        destruct (beqb c4 delimString); [apply err_at_cons; eauto|].
        injection H as <- <- <- <-. apply err_at_here.
      * destruct (beqb c3 delimEndObject); [discriminate|].
        injection H as <- <- <- <-. apply err_at_here.
    + injection H as ->. eauto.
Qed.

(* ---- stability when more input arrives ---- *)

Lemma skipSpace_ext s pos c r pos' t :
  skipSpace s pos = (c :: r, pos') -> skipSpace (s ++ t) pos = (c :: r ++ t, pos').
Proof.
  intro H. apply skipSpace_spec in H as (w & -> & Hw & -> & Hn). rewrite <- app_assoc.
  apply skipSpace_app; auto.
Qed.

Lemma readString_ext r i t : readString r = Some i -> readString (r ++ t) = Some i.
Proof.
  intro H. apply readString_spec in H as (a & b & -> & Ha & <-). apply readString_spec.
  exists a, (b ++ t). rewrite <- app_assoc. auto.
Qed.
Lemma scanQuote_ext r i t : scanQuote r 0 = Some i -> scanQuote (r ++ t) 0 = Some i.
Proof.
  intro H. apply scanQuote_spec in H as (a & b & -> & Ha & <-). apply scanQuote_spec.
  exists a, (b ++ t). rewrite <- app_assoc. auto.
Qed.
Lemma readString_bound r i : readString r = Some i -> S i <= length r.
Proof.
  intro H. apply readString_spec in H as (a & b & -> & Ha & <-). rewrite app_length; simpl; lia.
Qed.
Lemma scanQuote_bound r i : scanQuote r 0 = Some i -> S i <= length r.
Proof.
  intro H. apply scanQuote_spec in H as (a & b & -> & Ha & <-). rewrite app_length; simpl; lia.
Qed.
Lemma skipn_app_le {A} n (l t : list A) : n <= length l -> skipn n (l ++ t) = skipn n l ++ t.
Proof. intro H. rewrite skipn_app. replace (n - length l) with 0 by lia. reflexivity. Qed.
Lemma firstn_app_le {A} n (l t : list A) : n <= length l -> firstn n (l ++ t) = firstn n l.
Proof. intro H. rewrite firstn_app. replace (n - length l) with 0 by lia. apply app_nil_r. Qed.

(* [same_ext t r r']: r' is the outcome r with t appended to the remaining input. *)
Definition stable (t : bytes) (r r' : pres) : Prop :=
  match r with
  | POk ns pos rest => rest <> [] -> r' = POk ns pos (rest ++ t)
  | PErr (ParseError p ty g w) => r' = r
  | _ => True
  end.

Lemma readLiteral_stable t ns info typ lit s pos :
  stable t (readLiteral ns info typ lit s pos) (readLiteral ns info typ lit (s ++ t) pos).
Proof.
  unfold readLiteral, pdone. destruct (length lit <=? length s) eqn:El; [|exact I].
  pose proof El as El'. apply Nat.leb_le in El'.
  rewrite firstn_app_le, skipn_app_le by auto.
  replace (length lit <=? length (s ++ t)) with true
    by (symmetry; apply Nat.leb_le; rewrite app_length; lia).
  destruct (bseqb _ _); simpl; auto.
Qed.

Definition stable_at (t : bytes) (f : nat) : Prop :=
  (forall ns s pos, stable t (parseValue f ns s pos) (parseValue f ns (s ++ t) pos)) /\
  (forall ns s pos, stable t (parseArray f ns s pos) (parseArray f ns (s ++ t) pos)) /\
  (forall ns id acc s pos, stable t (arrayValue f ns id acc s pos) (arrayValue f ns id acc (s ++ t) pos)) /\
  (forall ns s pos, stable t (parseObject f ns s pos) (parseObject f ns (s ++ t) pos)) /\
  (forall ns id acc s pos, stable t (objectKey f ns id acc s pos) (objectKey f ns id acc (s ++ t) pos)).

Lemma parse_stable t : forall f, stable_at t f.
Proof.
  induction f as [|f (IHv & IHa & IHe & IHo & IHm)].
  { repeat split; simpl; intros; auto. }
  repeat split.
  - intros ns s pos.
    destruct (skipSpace s pos) as [s1 pos1] eqn:Esk.
    destruct s1 as [|c r]; [erewrite pv_eof by eauto; exact I|].
    pose proof (skipSpace_ext _ _ _ _ _ t Esk) as Esk'.
    destruct (start_byte c) eqn:Ec.
    2:{ do 2 erewrite pv_bad by eauto. reflexivity. }
    apply start_cases in Ec as [->|[->|[->|[->|[->|[->|Hd]]]]]].
    + do 2 erewrite pv_str by eauto. destruct (readString r) as [i|] eqn:Er; [|exact I].
      rewrite (readString_ext _ _ t Er). apply readString_bound in Er.
      intros _. rewrite firstn_app_le, skipn_app_le by lia. reflexivity.
    + do 2 erewrite pv_arr by eauto. auto.
    + do 2 erewrite pv_obj by eauto. auto.
    + do 2 erewrite pv_true by eauto. apply (readLiteral_stable t _ _ _ _ (x74 :: r)).
    + do 2 erewrite pv_false by eauto. apply (readLiteral_stable t _ _ _ _ (x66 :: r)).
    + do 2 erewrite pv_null by eauto. apply (readLiteral_stable t _ _ _ _ (x6e :: r)).
    + do 2 erewrite pv_num by eauto. cbv zeta.
      destruct (readNumber_spec (c :: r)) as (w & u & E & El & Hw & Hu).
      change (c :: r ++ t) with ((c :: r) ++ t). rewrite <- El. unfold pdone. cbn [stable].
      rewrite E. rewrite (skipn_app_exact w u _ eq_refl), (firstn_app_exact w u _ eq_refl). intro Hne.
      rewrite <- app_assoc. rewrite readNumber_app; auto.
      2:{ destruct u; simpl in *; auto. congruence. }
      rewrite skipn_app_exact, firstn_app_exact by auto. reflexivity.
  - intros ns s pos. cbn [parseArray].
    destruct (skipSpace s pos) as [s1 pos1] eqn:Esk.
    destruct s1 as [|c r]; [exact I|]. rewrite (skipSpace_ext _ _ _ _ _ t Esk).
    destruct (beqb c delimEndArray); [intros _; reflexivity|]. apply (IHe _ _ _ (c :: r)).
  - intros ns id acc s pos. cbn [arrayValue].
    specialize (IHv ns s pos).
    destruct (parseValue f ns s pos) as [ns1 p1 t1|[e|p ty g w]|] eqn:Ev; simpl in IHv; try exact I.
    + destruct (skipSpace t1 p1) as [s2 pos2] eqn:Esk.
      destruct s2 as [|c r]; [exact I|].
      rewrite IHv. 2:{ intros ->. discriminate. }
      rewrite (skipSpace_ext _ _ _ _ _ t Esk).
      destruct (beqb c delimValueSeparator); [apply IHe|].
      destruct (beqb c delimEndArray); [intros _; reflexivity|]. reflexivity.
    + rewrite IHv. reflexivity.
  - intros ns s pos. cbn [parseObject].
    destruct (skipSpace s pos) as [s1 pos1] eqn:Esk.
    destruct s1 as [|c r]; [exact I|]. rewrite (skipSpace_ext _ _ _ _ _ t Esk).
    destruct (beqb c delimEndObject); [intros _; reflexivity|].
    destruct (beqb c delimString); [apply IHm|reflexivity].
  - intros ns id acc s pos. cbn [objectKey].
    destruct (scanQuote s 0) as [i|] eqn:Eq; [|exact I].
    rewrite (scanQuote_ext _ _ t Eq). apply scanQuote_bound in Eq.
    rewrite firstn_app_le, skipn_app_le by lia.
    destruct (skipSpace (skipn (S i) s) _) as [s2 pos2] eqn:Esk.
    destruct s2 as [|c r]; [exact I|]. rewrite (skipSpace_ext _ _ _ _ _ t Esk).
    destruct (beqb c delimNameSeparator); [|reflexivity].
    specialize (IHv ns r (pos2 + 1)%N).
    destruct (parseValue f ns r (pos2 + 1)) as [ns1 p1 t1|[e|p ty g w]|] eqn:Ev; simpl in IHv; try exact I.
    + destruct (skipSpace t1 p1) as [s3 pos3] eqn:Esk3.
      destruct s3 as [|c3 r3]; [exact I|].
      rewrite IHv. 2:{ intros ->. discriminate. }
      rewrite (skipSpace_ext _ _ _ _ _ t Esk3).
      destruct (beqb c3 delimValueSeparator).
      * destruct (skipSpace r3 _) as [s4 pos4] eqn:Esk4.
        destruct s4 as [|c4 r4]; [exact I|]. rewrite (skipSpace_ext _ _ _ _ _ t Esk4).
        destruct (beqb c4 delimString); [apply IHm|reflexivity].
      * destruct (beqb c3 delimEndObject); [intros _; reflexivity|]. reflexivity.
    + rewrite IHv. reflexivity.
Qed.

(* ---- unexpected end of input can be completed ---- *)

Lemma esc_content_none s : scanQuote s 0 = None -> exists t, esc_content (s ++ t).
Proof.
  induction s as [s IH] using (induction_ltof1 _ (@length byte)). unfold ltof in IH.
  destruct s as [|c r]; simpl; intro H.
  - exists []. constructor.
  - unfold delimString, delimEscape in H. destruct (beqb_spec c x22) as [->|Hq]; [discriminate|].
    destruct (beqb_spec c x5c) as [->|He].
    + destruct r as [|d r].
      * exists [x5c]. apply esc_pair. constructor.
      * rewrite scanQuote_shift in H. destruct (IH r) as (t & Ht); [simpl; lia| |].
        { destruct (scanQuote r 0); auto; discriminate. }
        exists t. apply esc_pair; auto.
    + rewrite scanQuote_shift in H. destruct (IH r) as (t & Ht); [simpl; lia| |].
      { destruct (scanQuote r 0); auto; discriminate. }
      exists t. apply esc_plain; auto.
Qed.

Lemma lenient_string_none s : readString s = None -> exists t, lenient_string (s ++ t).
Proof.
  destruct s as [|c r].
  { exists []. apply ls_plain; auto. intros u0 H0; destruct u0; discriminate. }
  set (s := c :: r). unfold readString. change (match s with [] => None | _ :: _ => _ end) with
    (match indexByte delimString s with
      | None => None | Some O => Some O
      | Some (S i) => if beqb (nth i s x00) delimEscape
          then scanQuote (skipn (i + 2) s) (i + 2) else Some (S i) end).
  clearbody s. clear c r. intro H.
  destruct (indexByte delimString s) as [p|] eqn:E.
  - apply indexByte_spec in E as (a & b & -> & Hn & <-).
    destruct (snoc_cases a) as [->|(u & x & ->)]; [discriminate|].
    rewrite app_length in H. simpl length in H. rewrite Nat.add_1_r in H.
    rewrite <- app_assoc in H |- *. simpl app in H |- *.
    rewrite app_nth2, Nat.sub_diag in H by lia. simpl nth in H.
    unfold delimEscape, delimString in *. destruct (beqb_spec x x5c) as [Ex|Hx]; [|discriminate]. subst x.
    rewrite scanQuote_shift in H.
    replace (skipn (length u + 2) (u ++ x5c :: x22 :: b)) with b in H.
    2:{ change (u ++ x5c :: x22 :: b) with (u ++ ([x5c; x22] ++ b)). rewrite app_assoc.
        symmetry; apply skipn_app_exact. rewrite app_length; reflexivity. }
    destruct (scanQuote b 0) eqn:Es; [discriminate|].
    apply esc_content_none in Es as (t & Ht). exists t. rewrite <- app_assoc. simpl.
    apply ls_esc; auto. intro; apply Hn; apply in_or_app; auto.
  - apply indexByte_none in E. destruct (snoc_cases s) as [->|(u & x & ->)].
    + exists []. apply ls_plain; auto. intros u0 H1; destruct u0; discriminate.
    + destruct (beqb_spec x x5c) as [->|Hx].
      * exists [x22]. rewrite <- app_assoc. simpl. apply ls_esc; [|constructor].
        intro; apply E; apply in_or_app; auto.
      * exists []. rewrite app_nil_r. apply ls_plain; auto.
        intros v Hv. apply app_inj_tail in Hv as [_ ->]. congruence.
Qed.

Definition completable_value (s : bytes) : Prop :=
  exists t s1 w v, s ++ t = s1 ++ w /\ ws s1 /\ len_value v w /\ is_num v = false.

Definition eof_lit (ty : N) : bool := (ty =? TypeBoolean)%N || (ty =? TypeNull)%N.

(* The input does not end in a broken literal: a last word that starts like true, false or null,
   is shorter than it, and is no prefix of it. *)
Definition litok (ty : N) (s : bytes) : Prop :=
  eof_lit ty = true -> forall u w lit, In lit [str "true"; str "false"; str "null"] ->
  s = u ++ w -> length w < length lit -> hd_error w = hd_error lit -> exists x, lit = w ++ x.

Lemma litok_app ty a s : litok ty (a ++ s) -> litok ty s.
Proof. intros H E u w lit Hl -> Hlen Hh. apply (H E (a ++ u) w lit); auto. rewrite app_assoc. auto. Qed.
Lemma litok_cons ty c s : litok ty (c :: s) -> litok ty s.
Proof. apply (litok_app ty [c]). Qed.
#[local] Hint Resolve litok_app litok_cons : lit.
Ltac litok := repeat first [assumption | match goal with H : litok _ (_ ++ _) |- _ => apply litok_app in H
                                    | H : litok _ (_ :: _) |- _ => apply litok_cons in H end].

Definition eof_at (f : nat) : Prop :=
  (forall ns s pos ty, parseValue f ns s pos = PErr (UnexpectedEOF ty) -> litok ty s ->
     completable_value s) /\
  (forall ns s pos ty, parseArray f ns s pos = PErr (UnexpectedEOF ty) -> litok ty s ->
     exists t vs, len_value (JArr vs) (x5b :: s ++ t)) /\
  (forall ns id acc s pos ty, arrayValue f ns id acc s pos = PErr (UnexpectedEOF ty) -> litok ty s ->
     exists t vs, len_elements vs (s ++ t)) /\
  (forall ns s pos ty, parseObject f ns s pos = PErr (UnexpectedEOF ty) -> litok ty s ->
     exists t ms, len_value (JObj ms) (x7b :: s ++ t)) /\
  (forall ns id acc s pos ty, objectKey f ns id acc s pos = PErr (UnexpectedEOF ty) -> litok ty s ->
     exists t ms, forall s0, ws s0 -> len_members ms (s0 ++ x22 :: s ++ t)).

Lemma ws_nil : ws []. Proof. constructor. Qed.
#[local] Hint Resolve ws_nil : core.

Lemma readLiteral_eof ns info typ lit s pos ty :
  readLiteral ns info typ lit s pos = PErr (UnexpectedEOF ty) -> ty = typ /\ length s < length lit.
Proof.
  unfold readLiteral, pdone. destruct (Nat.leb_spec (length lit) (length s)).
  - destruct (bseqb _ _); discriminate.
  - intro E. split; [congruence|assumption].
Qed.

Lemma lit_completable c r u ns info typ lit v pos ty :
  readLiteral ns info typ lit (c :: r) pos = PErr (UnexpectedEOF ty) -> litok ty (u ++ c :: r) ->
  eof_lit typ = true -> In lit [str "true"; str "false"; str "null"] -> hd_error lit = Some c ->
  ws u -> len_value v lit -> is_num v = false -> completable_value (u ++ c :: r).
Proof.
  intros H L E Hin Hh Hu Hv Hn. apply readLiteral_eof in H as [-> Hlen].
  destruct (L E u (c :: r) lit Hin eq_refl Hlen) as (x & ->); [simpl; auto|].
  exists x, u, ((c :: r) ++ x), v. rewrite <- app_assoc. auto.
Qed.

Lemma esc_content_nil : esc_content []. Proof. constructor. Qed.
#[local] Hint Resolve esc_content_nil : core.

Lemma value_null : len_value JNull (str "null"). Proof. constructor. Qed.
#[local] Hint Resolve value_null : core.

Lemma parse_eof : forall f, eof_at f.
Proof.
  induction f as [|f (IHv & IHa & IHe & IHo & IHm)].
  { repeat split; simpl; intros; discriminate. }
  repeat split.
  - intros ns s pos ty H Hty.
    destruct (skipSpace s pos) as [s1 pos1] eqn:Esk.
    pose proof Esk as Esk'. apply skipSpace_spec in Esk' as (u & -> & Hu & -> & Hn).
    destruct s1 as [|c r].
    { exists (str "null"), u, (str "null"), JNull. rewrite app_nil_r. auto. }
    destruct (start_byte c) eqn:Ec.
    2:{ erewrite pv_bad in H by eauto; discriminate. }
    apply start_cases in Ec as [->|[->|[->|[->|[->|[->|Hd]]]]]].
    + erewrite pv_str in H by eauto. unfold pdone in H. destruct (readString r) eqn:Er; [discriminate|].
      apply lenient_string_none in Er as (t & Ht).
      exists (t ++ [x22]), u, (x22 :: (r ++ t) ++ [x22]), (JStr (r ++ t)).
      split; [rewrite <- !app_assoc; reflexivity|]. repeat split; auto. constructor; auto.
    + erewrite pv_arr in H by eauto. apply IHa in H as (t & vs & Hv); [|litok].
      exists t, u, (x5b :: r ++ t), (JArr vs). rewrite <- app_assoc. auto.
    + erewrite pv_obj in H by eauto. apply IHo in H as (t & vs & Hv); [|litok].
      exists t, u, (x7b :: r ++ t), (JObj vs). rewrite <- app_assoc. auto.
    + erewrite pv_true in H by eauto. eapply (lit_completable _ _ _ _ _ _ _ JTrue) in H; eauto; try reflexivity; try (simpl; tauto); constructor.
    + erewrite pv_false in H by eauto. eapply (lit_completable _ _ _ _ _ _ _ JFalse) in H; eauto; try reflexivity; try (simpl; tauto); constructor.
    + erewrite pv_null in H by eauto. eapply (lit_completable _ _ _ _ _ _ _ JNull) in H; eauto; try reflexivity; try (simpl; tauto); constructor.
    + erewrite pv_num in H by eauto. discriminate.
  - intros ns s pos ty H Hty. cbn [parseArray] in H.
    destruct (skipSpace s pos) as [s1 pos1] eqn:Esk.
    apply skipSpace_spec in Esk as (u & -> & Hu & -> & Hn).
    destruct s1 as [|c r].
    { exists [x5d], []. rewrite app_nil_r. constructor; auto. }
    destruct (beqb c delimEndArray); [discriminate|].
    apply IHe in H as (t & vs & Hel); [|litok].
    exists (t ++ [x5d]), vs. rewrite app_assoc. constructor.
    rewrite <- app_assoc. apply elements_ws; auto.
  - intros ns id acc s pos ty H Hty. cbn [arrayValue] in H.
    destruct (parseValue f ns s pos) as [ns1 p1 t1|e|] eqn:Ev; try discriminate.
    + apply parse_sound in Ev as (s1 & w & v & -> & Hs1 & Hv & Hst & -> & ->).
      destruct (skipSpace t1 (pos + lenN s1 + lenN w)) as [s2 pos2] eqn:Esk.
      apply skipSpace_spec in Esk as (u & -> & Hu & -> & Hn).
      destruct s2 as [|c r].
      { exists [], [v]. rewrite !app_nil_r. constructor; auto. }
      unfold delimValueSeparator in H.
      destruct (beqb_spec c x2c) as [->|Hc].
      2:{ destruct (beqb c delimEndArray); discriminate. }
      apply IHe in H as (t & vs & Hel); [|litok]. exists t, (v :: vs).
      replace ((s1 ++ w ++ u ++ x2c :: r) ++ t) with (s1 ++ w ++ u ++ x2c :: r ++ t)
        by (repeat (rewrite <- ?app_assoc; simpl); reflexivity).
      constructor; auto.
    + injection H as ->. apply IHv in Ev as (t & s1 & w & v & E & Hs1 & Hv & _); [|litok].
      exists t, [v]. rewrite E. rewrite <- (app_nil_r w). constructor; auto.
  - intros ns s pos ty H Hty. cbn [parseObject] in H.
    destruct (skipSpace s pos) as [s1 pos1] eqn:Esk.
    apply skipSpace_spec in Esk as (u & -> & Hu & -> & Hn).
    destruct s1 as [|c r].
    { exists [x7d], []. rewrite app_nil_r. constructor; auto. }
    destruct (beqb c delimEndObject); [discriminate|].
    unfold delimString in H. destruct (beqb_spec c x22) as [->|]; [|discriminate].
    apply IHm in H as (t & ms & Hm); [|litok].
    exists (t ++ [x7d]), ms. rewrite app_assoc. constructor.
    rewrite <- app_assoc. simpl. auto.
  - intros ns id acc s pos ty H Hty. cbn [objectKey] in H.
    destruct (scanQuote s 0) as [i|] eqn:Eq.
    2:{ apply esc_content_none in Eq as (t & Ht).
        exists (t ++ x22 :: x3a :: str "null"), [(s ++ t, JNull)]. intros s0 Hs0.
        rewrite app_assoc.
        apply (mem_one ws lenient_string esc_content lenient_number s0 (s ++ t) [] [] JNull (str "null") []); auto. }
    apply scanQuote_spec in Eq as (k & b & -> & Hk & <-).
    rewrite (app_cons_assoc k x22 b), skipn_app_exact in H by (rewrite app_length; simpl; lia).
    destruct (skipSpace b (pos + 1 + N.of_nat (length k))) as [s2 pos2] eqn:Esk.
    apply skipSpace_spec in Esk as (u & -> & Hu & -> & Hn).
    destruct s2 as [|c r].
    { exists (x3a :: str "null"), [(k, JNull)]. intros s0 Hs0. rewrite app_nil_r, <- app_assoc.
      apply (mem_one ws lenient_string esc_content lenient_number s0 k u [] JNull (str "null") []); auto. }
    unfold delimNameSeparator in H. destruct (beqb_spec c x3a) as [->|]; [|discriminate].
    destruct (parseValue f ns r _) as [ns1 p1 t1|e|] eqn:Ev; try discriminate.
    + apply parse_sound in Ev as (s1 & w & v & -> & Hs1 & Hv & Hst & -> & ->).
      destruct (skipSpace t1 _) as [s3 pos3] eqn:Esk in H.
      apply skipSpace_spec in Esk as (u' & -> & Hu' & -> & Hn').
      destruct s3 as [|c3 r3].
      { exists [], [(k, v)]. intros s0 Hs0. rewrite !app_nil_r. constructor; auto. }
      unfold delimValueSeparator in H. destruct (beqb_spec c3 x2c) as [->|].
      * destruct (skipSpace r3 _) as [s4 pos4] eqn:Esk in H.
        apply skipSpace_spec in Esk as (u2 & -> & Hu2 & -> & Hn2).
        destruct s4 as [|c4 r4].
        { exists (x22 :: x22 :: x3a :: str "null"), [(k, v); ([], JNull)]. intros s0 Hs0.
          rewrite app_nil_r. repeat (rewrite <- ?app_assoc; simpl).
          constructor; auto.
          apply (mem_one ws lenient_string esc_content lenient_number u2 [] [] [] JNull (str "null") []); auto. }
        unfold delimString in H. destruct (beqb_spec c4 x22) as [->|]; [|discriminate].
        apply IHm in H as (t & ms & Hm); [|litok].
        exists t, ((k, v) :: ms). intros s0 Hs0. repeat (rewrite <- ?app_assoc; simpl).
        constructor; auto.
      * destruct (beqb c3 delimEndObject); discriminate.
    + injection H as ->. apply IHv in Ev as (t & s1 & w & v & E & Hs1 & Hv & _); [|litok].
      exists t, [(k, v)]. intros s0 Hs0. repeat (rewrite <- ?app_assoc; simpl). rewrite E.
      rewrite <- (app_nil_r w). constructor; auto.
Qed.
