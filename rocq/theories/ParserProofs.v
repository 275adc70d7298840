(* The parser model against the lenient grammar: soundness, completeness, termination. *)
From Verif Require Import Bytes Tables Types JsonSpec Parser LexProofs.

(* ---- the nodes a tree occupies when laid out from id base on ---- *)

Fixpoint jsize (v : jval) : nat :=
  match v with
  | JArr vs => S (list_sum (map jsize vs))
  | JObj ms => S (list_sum (map (fun m => jsize (snd m)) ms))
  | _ => 1
  end.

Fixpoint arrVs (base : N) (vs : list jval) : list V :=
  match vs with
  | [] => []
  | v :: r => mkV base [] :: arrVs (base + N.of_nat (jsize v)) r
  end.
Fixpoint objVs (base : N) (ms : list (bytes * jval)) : list V :=
  match ms with
  | [] => []
  | (k, v) :: r => mkV base k :: objVs (base + N.of_nat (jsize v)) r
  end.

Fixpoint layout (base : N) (v : jval) : list node :=
  match v with
  | JStr w => [mkNode vString w []]
  | JNum w => [mkNode vNumber w []]
  | JTrue => [mkNode vBoolean strTrue []]
  | JFalse => [mkNode vBoolean strFalse []]
  | JNull => [mkNode vNull strNull []]
  | JArr vs =>
      mkNode vArray [] (arrVs (base + 1) vs) ::
      (fix go b l := match l with [] => [] | v :: r => layout b v ++ go (b + N.of_nat (jsize v))%N r end)
        (base + 1)%N vs
  | JObj ms =>
      mkNode vObject [] (objVs (base + 1) ms) ::
      (fix go b l := match l with [] => [] | m :: r => layout b (snd m) ++ go (b + N.of_nat (jsize (snd m)))%N r end)
        (base + 1)%N ms
  end.

Fixpoint layouts (b : N) (l : list jval) : list node :=
  match l with [] => [] | v :: r => layout b v ++ layouts (b + N.of_nat (jsize v))%N r end.
Fixpoint layoutm (b : N) (l : list (bytes * jval)) : list node :=
  match l with [] => [] | m :: r => layout b (snd m) ++ layoutm (b + N.of_nat (jsize (snd m)))%N r end.

Lemma layout_arr base vs :
  layout base (JArr vs) = mkNode vArray [] (arrVs (base + 1) vs) :: layouts (base + 1) vs.
Proof.
  reflexivity.
Qed.
Lemma layout_obj base ms :
  layout base (JObj ms) = mkNode vObject [] (objVs (base + 1) ms) :: layoutm (base + 1) ms.
Proof.
  reflexivity.
Qed.

Lemma layout_length v : forall base, length (layout base v) = jsize v.
Proof.
  induction v using jval_ind'; intros base; try reflexivity.
  - rewrite layout_arr. simpl. f_equal. generalize (base + 1)%N.
    induction H; simpl; intros; auto. rewrite app_length. rewrite H. f_equal. auto.
  - rewrite layout_obj. simpl. f_equal. generalize (base + 1)%N.
    induction H; simpl; intros; auto. rewrite app_length. rewrite H. f_equal. auto.
Qed.

Lemma lenN_app {A} (a b : list A) : lenN (a ++ b) = (lenN a + lenN b)%N.
Proof. unfold lenN. rewrite app_length. lia. Qed.
Lemma lenN_cons {A} (a : A) (b : list A) : lenN (a :: b) = (1 + lenN b)%N.
Proof. unfold lenN. simpl length. lia. Qed.
Lemma lenN_nil {A} : lenN (@nil A) = 0%N.
Proof. reflexivity. Qed.
Lemma lenN_layout b v : lenN (layout b v) = N.of_nat (jsize v).
Proof. unfold lenN. rewrite layout_length. reflexivity. Qed.

Lemma setValues_app a n b vs :
  setValues (a ++ n :: b) (length a) vs = a ++ mkNode (ninfo n) (nraw n) vs :: b.
Proof. induction a; simpl; auto. f_equal; auto. Qed.

Ltac len := unfold lenN in *; repeat (rewrite app_length in * || cbn [length] in *); lia.
Ltac nsimpl := rewrite ?lenN_app, ?lenN_cons, ?lenN_nil in *.

(* ---- first bytes of value texts ---- *)

Lemma str_true : str "true" = [x74; x72; x75; x65]. Proof. reflexivity. Qed.
Lemma str_false : str "false" = [x66; x61; x6c; x73; x65]. Proof. reflexivity. Qed.
Lemma str_null : str "null" = [x6e; x75; x6c; x6c]. Proof. reflexivity. Qed.

Definition start_byte (c : byte) : bool :=
  beqb c x22 || beqb c x5b || beqb c x7b || beqb c x74 || beqb c x66 || beqb c x6e || beqb c x2d || digitb c.

Lemma start_not_ws c : start_byte c = true -> ~ ws_byte c.
Proof.
  intro H. rewrite <- wsb_iff.
  assert (G : forallb (fun c => implb (start_byte c) (negb (wsb c))) all_bytes = true)
    by (vm_compute; reflexivity).
  pose proof (forall_bytes _ G c) as K. cbv beta in K. rewrite H in K. destruct (wsb c); cbn in *; congruence.
Qed.

Lemma lenient_value_start v w : lenient_value v w -> exists c r, w = c :: r /\ start_byte c = true.
Proof.
  intro H. destruct H; eauto 6; try (rewrite ?str_true, ?str_false, ?str_null; eauto).
  destruct H as (c & w' & -> & Hc & _). exists c, w'. split; auto.
  unfold start_byte. destruct Hc as [->|Hc]; [reflexivity|]. apply digitb_iff in Hc. rewrite Hc.
  apply orb_true_r.
Qed.

Lemma start_not_end c : start_byte c = true -> beqb c x5d = false.
Proof.
  intro H. destruct (beqb_spec c x5d) as [->|]; auto.
Qed.

Lemma value_head s w t : ws s -> (exists c r, w = c :: r /\ start_byte c = true) ->
  nonspace_head (w ++ t).
Proof. intros _ (c & r & -> & H). simpl. apply start_not_ws; auto. Qed.

(* ---- dispatch on the first byte of a value ---- *)

Lemma pv_str f ns s r pos pos' :
  skipSpace s pos = (x22 :: r, pos') ->
  parseValue (S f) ns s pos =
    match readString r with
    | Some i => pdone ns vString (firstn i r) (pos' + 1 + N.of_nat i + 1) (skipn (S i) r)
    | None => PErr (UnexpectedEOF TypeString)
    end.
Proof. intro H. simpl. rewrite H. reflexivity. Qed.

Lemma pv_arr f ns s r pos pos' :
  skipSpace s pos = (x5b :: r, pos') -> parseValue (S f) ns s pos = parseArray f ns r (pos' + 1).
Proof. intro H. simpl. rewrite H. reflexivity. Qed.

Lemma pv_obj f ns s r pos pos' :
  skipSpace s pos = (x7b :: r, pos') -> parseValue (S f) ns s pos = parseObject f ns r (pos' + 1).
Proof. intro H. simpl. rewrite H. reflexivity. Qed.

Lemma pv_num f ns s c r pos pos' :
  skipSpace s pos = (c :: r, pos') -> c = x2d \/ digit c ->
  parseValue (S f) ns s pos =
    (let i := readNumber (c :: r) in
     pdone ns vNumber (firstn i (c :: r)) (pos' + N.of_nat i) (skipn i (c :: r))).
Proof.
  intros H Hc. cbn [parseValue]. rewrite H. rewrite tbl_digit.
  assert (digitb c || beqb c x2d = true) as E.
  { destruct Hc as [->|Hc]; [reflexivity|]. apply digitb_iff in Hc. rewrite Hc. reflexivity. }
  rewrite E.
  assert (beqb c delimString = false /\ beqb c delimBeginObject = false /\ beqb c delimBeginArray = false)
    as (-> & -> & ->); auto.
  destruct Hc as [->|Hc]; [repeat split; reflexivity|]. apply digitb_iff in Hc.
  repeat split; apply beqb_false; intros ->; discriminate Hc.
Qed.

Lemma pv_null f ns s r pos pos' :
  skipSpace s pos = (x6e :: r, pos') ->
  parseValue (S f) ns s pos = readLiteral ns vNull TypeNull strNull (x6e :: r) pos'.
Proof. intro H. cbn [parseValue]. rewrite H. reflexivity. Qed.
Lemma pv_false f ns s r pos pos' :
  skipSpace s pos = (x66 :: r, pos') ->
  parseValue (S f) ns s pos = readLiteral ns vBoolean TypeBoolean strFalse (x66 :: r) pos'.
Proof. intro H. cbn [parseValue]. rewrite H. reflexivity. Qed.
Lemma pv_true f ns s r pos pos' :
  skipSpace s pos = (x74 :: r, pos') ->
  parseValue (S f) ns s pos = readLiteral ns vBoolean TypeBoolean strTrue (x74 :: r) pos'.
Proof. intro H. cbn [parseValue]. rewrite H. reflexivity. Qed.
Lemma pv_bad f ns s c r pos pos' :
  skipSpace s pos = (c :: r, pos') -> start_byte c = false ->
  parseValue (S f) ns s pos = PErr (ParseError pos' TypeAnyValue (GotByte c) (WantStr (str "any value"))).
Proof.
  intros H E. cbn [parseValue]. rewrite H, tbl_digit. unfold start_byte in E.
  repeat (apply orb_false_iff in E as [E ?]). unfold delimString, delimBeginObject, delimBeginArray.
  repeat match goal with H : _ = false |- _ => rewrite H; clear H end. reflexivity.
Qed.
Lemma pv_eof f ns s pos pos' :
  skipSpace s pos = ([], pos') -> parseValue (S f) ns s pos = PErr (UnexpectedEOF TypeAnyValue).
Proof. intro H. cbn [parseValue]. rewrite H. reflexivity. Qed.

Lemma start_cases c : start_byte c = true ->
  c = x22 \/ c = x5b \/ c = x7b \/ c = x74 \/ c = x66 \/ c = x6e \/ (c = x2d \/ digit c).
Proof. unfold start_byte. rewrite !orb_true_iff, !beqb_true, digitb_iff. tauto. Qed.

Lemma readLiteral_ok ns info typ lit tail pos :
  readLiteral ns info typ lit (lit ++ tail) pos = pdone ns info lit (pos + lenN lit) tail.
Proof.
  unfold readLiteral. rewrite app_length.
  replace (length lit <=? length lit + length tail) with true by (symmetry; apply Nat.leb_le; lia).
  rewrite firstn_app_exact, bseqb_refl, skipn_app_exact; auto.
Qed.

Lemma readLiteral_inv ns info typ lit s pos ns' pos' rest :
  readLiteral ns info typ lit s pos = POk ns' pos' rest ->
  s = lit ++ rest /\ ns' = ns ++ [mkNode info lit []] /\ pos' = (pos + lenN lit)%N.
Proof.
  unfold readLiteral. destruct (length lit <=? length s); [|discriminate].
  destruct (bseqb (firstn (length lit) s) lit) eqn:E; [|discriminate].
  apply bseqb_true in E. unfold pdone. rewrite E. injection 1 as <- <- <-. split; auto.
  rewrite <- E at 1. symmetry. apply firstn_skipn.
Qed.

(* ---- completeness ---- *)

Definition complete_value (v : jval) (w : bytes) : Prop :=
  forall fuel ns s tail pos,
    (2 * length w <= fuel)%nat -> ws s -> (is_num v = true -> num_stop tail) ->
    parseValue fuel ns (s ++ w ++ tail) pos
    = POk (ns ++ layout (lenN ns) v) (pos + lenN s + lenN w) tail.

Definition complete_elements (vs : list jval) (w : bytes) : Prop :=
  forall fuel ns id acc s w' tail pos,
    (2 * length w + 1 <= fuel)%nat -> w = s ++ w' -> ws s ->
    arrayValue fuel ns id acc (w' ++ x5d :: tail) pos
    = POk (setValues (ns ++ layouts (lenN ns) vs) id (acc ++ arrVs (lenN ns) vs))
          (pos + lenN w' + 1) tail.

Definition complete_members (ms : list (bytes * jval)) (w : bytes) : Prop :=
  forall fuel ns id acc s w' tail pos,
    (2 * length w + 1 <= fuel)%nat -> w = s ++ x22 :: w' -> ws s ->
    objectKey fuel ns id acc (w' ++ x7d :: tail) pos
    = POk (setValues (ns ++ layoutm (lenN ns) ms) id (acc ++ objVs (lenN ns) ms))
          (pos + lenN w' + 1) tail.

Lemma pow2 {A} (x : A) r : (2 * length (x :: r) = S (S (2 * length r)))%nat.
Proof. simpl; lia. Qed.

Lemma num_stop_app (s t : bytes) c : ws s -> num_end c -> num_stop (s ++ c :: t).
Proof.
  intros Hs Hc. destruct s; simpl; auto. inversion Hs; subst. left; auto.
Qed.

Lemma split_ws s s1 c r w' :
  ws s -> ~ ws_byte c -> s1 ++ c :: r = s ++ w' -> exists s2, s1 = s ++ s2 /\ w' = s2 ++ c :: r.
Proof.
  intros H1 Hc. revert s1. induction H1 as [|d s Hd Hs IH]; intros s1 E.
  - exists s1. auto.
  - destruct s1 as [|e s1]; simpl in E; injection E; intros.
    + subst. contradiction.
    + subst. destruct (IH _ H) as (s2 & -> & ->). exists s2. auto.
Qed.

Lemma split_key s s1 (w w' : bytes) :
  ws s -> ws s1 -> s ++ x22 :: w = s1 ++ x22 :: w' -> s = s1 /\ w = w'.
Proof.
  intros H1 H2. revert s1 H2. induction H1 as [|c s Hc Hs IH]; intros s1 H2 E.
  - destruct s1; simpl in E; injection E; intros; subst; auto.
    inversion H2 as [|? ? Hb Hb']; subst. destruct Hb as [?|[?|[?|?]]]; discriminate.
  - destruct s1; simpl in E; injection E; intros; subst.
    + destruct Hc as [?|[?|[?|?]]]; discriminate.
    + inversion H2 as [|? ? Hb Hb']; subst. destruct (IH _ Hb' H) as [-> ->]. auto.
Qed.

Ltac not_ws := let H := fresh in intro H; destruct H as [H|[H|[H|H]]]; discriminate H.

Lemma parse_complete :
  (forall v w, lenient_value v w -> complete_value v w) /\
  (forall vs w, elements ws lenient_string esc_content lenient_number vs w -> complete_elements vs w) /\
  (forall ms w, members ws lenient_string esc_content lenient_number ms w -> complete_members ms w).
Proof.
  apply grammar_mind.
  - (* string *)
    intros w Hw fuel ns s tail pos Hf Hs _.
    destruct fuel as [|f]; [simpl in Hf; lia|].
    rewrite (pv_str f ns (s ++ (x22 :: w ++ [x22]) ++ tail) (w ++ x22 :: tail) pos (pos + lenN s)).
    2:{ simpl. rewrite <- app_assoc. apply skipSpace_app; auto. simpl. not_ws. }
    assert (readString (w ++ x22 :: tail) = Some (length w)) as ->.
    { apply readString_spec. exists w, tail. auto. }
    unfold pdone. rewrite firstn_app_exact by auto.
    change (x22 :: tail) with ([x22] ++ tail). rewrite app_assoc, skipn_app_exact.
    2:{ rewrite app_length; simpl; lia. }
    simpl. f_equal. len.
  - (* number *)
    intros w (c & w' & -> & Hc & Hw) fuel ns s tail pos Hf Hs Ht.
    destruct fuel as [|f]; [simpl in Hf; lia|].
    rewrite (pv_num f ns (s ++ (c :: w') ++ tail) c (w' ++ tail) pos (pos + lenN s)); auto.
    2:{ apply skipSpace_app; auto. simpl. apply start_not_ws. unfold start_byte.
        destruct Hc as [->|Hc]; [reflexivity|]. apply digitb_iff in Hc. rewrite Hc. apply orb_true_r. }
    assert (Forall (fun b => ~ num_end b) (c :: w')) as Hall.
    { constructor; auto. destruct Hc as [->|Hc].
      - intros [H|[H|[H|H]]]; try discriminate. revert H; not_ws.
      - apply digitb_iff in Hc. apply numendb_not, digit_not_numend; auto. }
    change (c :: w' ++ tail) with ((c :: w') ++ tail). cbv zeta.
    rewrite readNumber_app by auto.
    rewrite firstn_app_exact, skipn_app_exact by auto. unfold pdone. simpl layout. f_equal.
  - (* true *)
    intros fuel ns s tail pos Hf Hs _.
    destruct fuel as [|f]; [simpl in Hf; lia|].
    rewrite (pv_true f ns (s ++ str "true" ++ tail) (skipn 1 (str "true") ++ tail) pos (pos + lenN s)).
    2:{ apply skipSpace_app; auto. simpl. not_ws. }
    change (x74 :: skipn 1 (str "true") ++ tail) with (strTrue ++ tail).
    rewrite readLiteral_ok. reflexivity.
  - intros fuel ns s tail pos Hf Hs _.
    destruct fuel as [|f]; [simpl in Hf; lia|].
    rewrite (pv_false f ns (s ++ str "false" ++ tail) (skipn 1 (str "false") ++ tail) pos (pos + lenN s)).
    2:{ apply skipSpace_app; auto. simpl. not_ws. }
    change (x66 :: skipn 1 (str "false") ++ tail) with (strFalse ++ tail).
    rewrite readLiteral_ok. reflexivity.
  - intros fuel ns s tail pos Hf Hs _.
    destruct fuel as [|f]; [simpl in Hf; lia|].
    rewrite (pv_null f ns (s ++ str "null" ++ tail) (skipn 1 (str "null") ++ tail) pos (pos + lenN s)).
    2:{ apply skipSpace_app; auto. simpl. not_ws. }
    change (x6e :: skipn 1 (str "null") ++ tail) with (strNull ++ tail).
    rewrite readLiteral_ok. reflexivity.
  - (* [] *)
    intros s0 Hs0 fuel ns s tail pos Hf Hs _.
    rewrite pow2 in Hf. destruct fuel as [|[|f]]; try lia.
    rewrite (pv_arr (S f) ns _ (s0 ++ x5d :: tail) pos (pos + lenN s)).
    2:{ simpl. rewrite <- app_assoc. apply skipSpace_app; auto. simpl. not_ws. }
    cbn [parseArray]. rewrite skipSpace_app by (auto; simpl; not_ws).
    simpl. f_equal. len.
  - (* array *)
    intros vs w Hel IH fuel ns s tail pos Hf Hs _.
    rewrite pow2, app_length in Hf. simpl in Hf. destruct fuel as [|[|f]]; try lia.
    rewrite (pv_arr (S f) ns _ (w ++ x5d :: tail) pos (pos + lenN s)).
    2:{ simpl. rewrite <- app_assoc. apply skipSpace_app; auto. simpl. not_ws. }
    cbn [parseArray].
    destruct (skipSpace (w ++ x5d :: tail) (pos + lenN s + 1)) as [s1 pos1] eqn:Esk.
    assert (exists s0 r c, w = s0 ++ c :: r /\ ws s0 /\ start_byte c = true) as (s0 & r & c & -> & Hs0 & Hc).
    { destruct Hel as [s1' v w0 s2 H1 H2 H3|s1' v w0 s2 vs' w0' H1 H2 H3 H4];
        destruct (lenient_value_start _ _ H2) as (c & r & -> & Hc);
        exists s1'; simpl; eauto. }
    rewrite <- app_assoc in Esk. simpl in Esk.
    rewrite skipSpace_app in Esk by (auto; simpl; apply start_not_ws; auto).
    injection Esk as <- <-.
    unfold delimEndArray. rewrite start_not_end by auto.
    rewrite (IH f (ns ++ [mkNode vArray [] []]) (length ns) [] s0 (c :: r) tail); auto.
    2:{ simpl in Hf. rewrite app_length in *. simpl in *. lia. }
    rewrite layout_arr. rewrite <- !app_assoc. simpl app at 2.
    rewrite setValues_app. simpl. nsimpl. change (1 + 0)%N with 1%N.
    f_equal. len.
  - (* {} *)
    intros s0 Hs0 fuel ns s tail pos Hf Hs _.
    rewrite pow2 in Hf. destruct fuel as [|[|f]]; try lia.
    rewrite (pv_obj (S f) ns _ (s0 ++ x7d :: tail) pos (pos + lenN s)).
    2:{ simpl. rewrite <- app_assoc. apply skipSpace_app; auto. simpl. not_ws. }
    cbn [parseObject]. rewrite skipSpace_app by (auto; simpl; not_ws).
    simpl. f_equal. len.
  - (* object *)
    intros ms w Hel IH fuel ns s tail pos Hf Hs _.
    rewrite pow2, app_length in Hf. simpl in Hf. destruct fuel as [|[|f]]; try lia.
    rewrite (pv_obj (S f) ns _ (w ++ x7d :: tail) pos (pos + lenN s)).
    2:{ simpl. rewrite <- app_assoc. apply skipSpace_app; auto. simpl. not_ws. }
    cbn [parseObject].
    destruct (skipSpace (w ++ x7d :: tail) (pos + lenN s + 1)) as [s1 pos1] eqn:Esk.
    assert (exists s0 r, w = s0 ++ x22 :: r /\ ws s0) as (s0 & r & -> & Hs0).
    { destruct Hel; eauto. }
    rewrite <- app_assoc in Esk. simpl in Esk.
    rewrite skipSpace_app in Esk by (auto; simpl; not_ws).
    injection Esk as <- <-.
    change (beqb x22 delimEndObject) with false. change (beqb x22 delimString) with true. cbv iota.
    rewrite (IH f (ns ++ [mkNode vObject [] []]) (length ns) [] s0 r tail); auto.
    2:{ simpl in Hf. rewrite app_length in *. simpl in *. lia. }
    rewrite layout_obj. rewrite <- !app_assoc. simpl app at 2.
    rewrite setValues_app. simpl. nsimpl. change (1 + 0)%N with 1%N.
    f_equal. len.
  - (* one element *)
    intros s1 v w0 s2 H1 Hv IH H2 fuel ns id acc s w' tail pos Hf E Hs.
    destruct (lenient_value_start _ _ Hv) as (c & r & Ew & Hc).
    rewrite Ew in E. simpl in E.
    destruct (split_ws s s1 c (r ++ s2) w') as (s3 & -> & ->); auto using start_not_ws.
    apply Forall_app in H1 as [_ H3]. clear E.
    destruct fuel as [|f]; [lia|]. cbn [arrayValue].
    replace ((s3 ++ c :: r ++ s2) ++ x5d :: tail) with (s3 ++ w0 ++ (s2 ++ x5d :: tail)).
    2:{ subst w0. repeat rewrite <- ?app_assoc; simpl. rewrite <- app_assoc. reflexivity. }
    rewrite IH; auto.
    2:{ rewrite !app_length in Hf. lia. }
    2:{ intros _. apply num_stop_app; auto. right; right; left; reflexivity. }
    rewrite skipSpace_app by (auto; simpl; not_ws).
    change (beqb x5d delimValueSeparator) with false. change (beqb x5d delimEndArray) with true. cbv iota.
    simpl layouts. rewrite app_nil_r. simpl arrVs. f_equal. subst w0. len.
  - (* more elements *)
    intros s1 v w0 s2 vs w1 H1 Hv IH H2 Hel IHel fuel ns id acc s w' tail pos Hf E Hs.
    destruct (lenient_value_start _ _ Hv) as (c & r & Ew & Hc).
    rewrite Ew in E. simpl in E.
    destruct (split_ws s s1 c (r ++ s2 ++ x2c :: w1) w') as (s3 & -> & ->); auto using start_not_ws.
    apply Forall_app in H1 as [_ H3]. clear E.
    destruct fuel as [|f]; [lia|]. cbn [arrayValue].
    replace ((s3 ++ c :: r ++ s2 ++ x2c :: w1) ++ x5d :: tail) with (s3 ++ w0 ++ (s2 ++ x2c :: w1 ++ x5d :: tail)).
    2:{ subst w0. repeat (rewrite <- ?app_assoc; simpl). reflexivity. }
    rewrite !app_length in Hf; simpl in Hf.
    rewrite IH; auto; [|lia|].
    2:{ intros _. apply num_stop_app; auto. right; left; reflexivity. }
    rewrite skipSpace_app by (auto; simpl; not_ws).
    change (beqb x2c delimValueSeparator) with true. cbv iota.
    rewrite (IHel f _ id _ [] w1 tail); auto; [|lia|constructor].
    simpl layouts. simpl arrVs. rewrite <- !app_assoc. simpl app.
    rewrite lenN_app, lenN_layout. f_equal. subst w0. len.
  - (* one member *)
    intros s1 k s2 s3 v w0 s4 H1 Hk H2 H3 Hv IH H4 fuel ns id acc s w' tail pos Hf E Hs.
    destruct (split_key s1 s _ _ H1 Hs E) as [-> <-]. clear E.
    destruct fuel as [|f]; [lia|]. cbn [objectKey].
    replace ((k ++ x22 :: s2 ++ x3a :: s3 ++ w0 ++ s4) ++ x7d :: tail)
      with (k ++ x22 :: (s2 ++ x3a :: (s3 ++ w0 ++ (s4 ++ x7d :: tail)))).
    2:{ repeat (rewrite <- ?app_assoc; simpl). reflexivity. }
    set (R := s2 ++ _).
    assert (scanQuote (k ++ x22 :: R) 0 = Some (length k)) as ->.
    { apply scanQuote_spec. exists k, R. auto. }
    replace (skipn (S (length k)) (k ++ x22 :: R)) with R.
    2:{ change (x22 :: R) with ([x22] ++ R). rewrite app_assoc, skipn_app_exact; auto.
        rewrite app_length; simpl; lia. }
    rewrite firstn_app_exact by auto. unfold R.
    rewrite skipSpace_app by (auto; simpl; not_ws).
    change (beqb x3a delimNameSeparator) with true. cbv iota.
    repeat (rewrite app_length in Hf; simpl in Hf).
    rewrite IH; auto; [|lia|].
    2:{ intros _. apply num_stop_app; auto. right; right; right; reflexivity. }
    rewrite skipSpace_app by (auto; simpl; not_ws).
    change (beqb x7d delimValueSeparator) with false. change (beqb x7d delimEndObject) with true. cbv iota.
    simpl layoutm. rewrite app_nil_r. simpl objVs. f_equal. len.
  - (* more members *)
    intros s1 k s2 s3 v w0 s4 ms w1 H1 Hk H2 H3 Hv IH H4 Hms IHms fuel ns id acc s w' tail pos Hf E Hs.
    destruct (split_key s1 s _ _ H1 Hs E) as [-> <-]. clear E.
    destruct fuel as [|f]; [lia|]. cbn [objectKey].
    assert (exists s5 r, w1 = s5 ++ x22 :: r /\ ws s5) as (s5 & r & Ew1 & Hs5).
    { destruct Hms; eauto. }
    replace ((k ++ x22 :: s2 ++ x3a :: s3 ++ w0 ++ s4 ++ x2c :: w1) ++ x7d :: tail)
      with (k ++ x22 :: (s2 ++ x3a :: (s3 ++ w0 ++ (s4 ++ x2c :: s5 ++ x22 :: r ++ x7d :: tail)))).
    2:{ subst w1. repeat (rewrite <- ?app_assoc; simpl). reflexivity. }
    set (R := s2 ++ _).
    assert (scanQuote (k ++ x22 :: R) 0 = Some (length k)) as ->.
    { apply scanQuote_spec. exists k, R. auto. }
    replace (skipn (S (length k)) (k ++ x22 :: R)) with R.
    2:{ change (x22 :: R) with ([x22] ++ R). rewrite app_assoc, skipn_app_exact; auto.
        rewrite app_length; simpl; lia. }
    rewrite firstn_app_exact by auto. unfold R.
    rewrite skipSpace_app by (auto; simpl; not_ws).
    change (beqb x3a delimNameSeparator) with true. cbv iota.
    repeat (rewrite app_length in Hf; simpl in Hf).
    rewrite IH; auto; [|lia|].
    2:{ intros _. apply num_stop_app; auto. right; left; reflexivity. }
    rewrite skipSpace_app by (auto; simpl; not_ws).
    change (beqb x2c delimValueSeparator) with true. cbv iota.
    rewrite skipSpace_app by (auto; simpl; not_ws).
    change (beqb x22 delimString) with true. cbv iota.
    rewrite (IHms f _ id _ s5 r tail); auto; [|lia].
    simpl layoutm. simpl objVs. rewrite <- !app_assoc. simpl app.
    rewrite lenN_app, lenN_layout. f_equal. subst w1. len.
Qed.

(* ---- soundness ---- *)

Notation len_value := (value ws lenient_string esc_content lenient_number).
Notation len_elements := (elements ws lenient_string esc_content lenient_number).
Notation len_members := (members ws lenient_string esc_content lenient_number).

Definition sound_at (fuel : nat) : Prop :=
  (forall ns s pos ns' pos' rest,
    parseValue fuel ns s pos = POk ns' pos' rest ->
    exists s1 w v, s = s1 ++ w ++ rest /\ ws s1 /\ len_value v w /\
      (is_num v = true -> num_stop rest) /\
      ns' = ns ++ layout (lenN ns) v /\ pos' = (pos + lenN s1 + lenN w)%N) /\
  (forall ns s pos ns' pos' rest,
    parseArray fuel ns s pos = POk ns' pos' rest ->
    exists w vs, s = w ++ rest /\ len_value (JArr vs) (x5b :: w) /\
      ns' = ns ++ layout (lenN ns) (JArr vs) /\ pos' = (pos + lenN w)%N) /\
  (forall ns id acc s pos ns' pos' rest,
    arrayValue fuel ns id acc s pos = POk ns' pos' rest ->
    exists w vs, s = w ++ x5d :: rest /\ len_elements vs w /\
      ns' = setValues (ns ++ layouts (lenN ns) vs) id (acc ++ arrVs (lenN ns) vs) /\
      pos' = (pos + lenN w + 1)%N) /\
  (forall ns s pos ns' pos' rest,
    parseObject fuel ns s pos = POk ns' pos' rest ->
    exists w ms, s = w ++ rest /\ len_value (JObj ms) (x7b :: w) /\
      ns' = ns ++ layout (lenN ns) (JObj ms) /\ pos' = (pos + lenN w)%N) /\
  (forall ns id acc s pos ns' pos' rest,
    objectKey fuel ns id acc s pos = POk ns' pos' rest ->
    exists w ms, s = w ++ x7d :: rest /\ (forall s0, ws s0 -> len_members ms (s0 ++ x22 :: w)) /\
      ns' = setValues (ns ++ layoutm (lenN ns) ms) id (acc ++ objVs (lenN ns) ms) /\
      pos' = (pos + lenN w + 1)%N).

Lemma app_cons_assoc {A} (a : list A) c b : a ++ c :: b = (a ++ [c]) ++ b.
Proof. rewrite <- app_assoc. reflexivity. Qed.

Lemma elements_ws s vs w : ws s -> len_elements vs w -> len_elements vs (s ++ w).
Proof.
  intros Hs H. destruct H as [s1 v w s2 H1 H2 H3|s1 v w s2 vs w' H1 H2 H3 H4]; rewrite app_assoc.
  - constructor; auto. apply Forall_app; auto.
  - constructor; auto. apply Forall_app; auto.
Qed.

Lemma parse_sound : forall fuel, sound_at fuel.
Proof.
  induction fuel as [|f (IHv & IHa & IHe & IHo & IHm)].
  { repeat split; simpl; intros; discriminate. }
  repeat split.
  - (* parseValue *)
    intros ns s pos ns' pos' rest H.
    destruct (skipSpace s pos) as [s1 pos1] eqn:Esk.
    pose proof Esk as Esk'. apply skipSpace_spec in Esk' as (u & -> & Hu & -> & Hn).
    destruct s1 as [|c r]; [erewrite pv_eof in H by eauto; discriminate|].
    destruct (start_byte c) eqn:Ec; [|erewrite pv_bad in H by eauto; discriminate].
    apply start_cases in Ec as [->|[->|[->|[->|[->|[->|Hd]]]]]].
    + erewrite pv_str in H by eauto. destruct (readString r) as [i|] eqn:Er; [|discriminate].
      apply readString_spec in Er as (a & b & -> & Ha & <-). unfold pdone in H.
      rewrite firstn_app_exact in H by auto.
      rewrite (app_cons_assoc a x22 b), skipn_app_exact in H by (rewrite app_length; simpl; lia).
      injection H as <- <- <-.
      exists u, (x22 :: a ++ [x22]), (JStr a). split; [simpl; rewrite <- app_assoc; reflexivity|].
      split; auto. split; [constructor; auto|]. split; [simpl; discriminate|].
      split; [reflexivity|]. len.
    + erewrite pv_arr in H by eauto. apply IHa in H as (w & vs & -> & Hv & -> & ->).
      exists u, (x5b :: w), (JArr vs). repeat split; auto; [simpl; discriminate|]. len.
    + erewrite pv_obj in H by eauto. apply IHo in H as (w & vs & -> & Hv & -> & ->).
      exists u, (x7b :: w), (JObj vs). repeat split; auto; [simpl; discriminate|]. len.
    + erewrite pv_true in H by eauto. apply readLiteral_inv in H as (-> & -> & ->).
      exists u, strTrue, JTrue. repeat split; auto; [constructor|simpl; discriminate].
    + erewrite pv_false in H by eauto. apply readLiteral_inv in H as (-> & -> & ->).
      exists u, strFalse, JFalse. repeat split; auto; [constructor|simpl; discriminate].
    + erewrite pv_null in H by eauto. apply readLiteral_inv in H as (-> & -> & ->).
      exists u, strNull, JNull. repeat split; auto; [constructor|simpl; discriminate].
    + erewrite pv_num in H by eauto. cbv zeta in H.
      destruct (readNumber_spec (c :: r)) as (w & t & E & El & Hw & Ht).
      rewrite <- El in H. rewrite E in H. unfold pdone in H.
      rewrite firstn_app_exact, skipn_app_exact in H by auto. injection H as <- <- <-.
      rewrite E. exists u, w, (JNum w). repeat split; auto.
      constructor. destruct w as [|d w].
      { exfalso. simpl in E. subst t. simpl in Ht.
        destruct Hd as [->|Hd].
        - destruct Ht as [[?|[?|[?|?]]]|[?|[?|?]]]; discriminate.
        - apply digitb_iff in Hd. apply digit_not_numend in Hd. apply numendb_iff in Ht. congruence. }
      injection E as -> ->. inversion Hw; subst. exists d, w. auto.
  - (* parseArray *)
    intros ns s pos ns' pos' rest H. cbn [parseArray] in H.
    destruct (skipSpace s pos) as [s1 pos1] eqn:Esk.
    apply skipSpace_spec in Esk as (u & -> & Hu & -> & Hn).
    destruct s1 as [|c r]; [discriminate|].
    unfold delimEndArray in H. destruct (beqb_spec c x5d) as [->|Hc].
    + injection H as <- <- <-. exists (u ++ [x5d]), [].
      rewrite <- app_assoc. repeat split; auto; [|len]. apply (v_arr0 ws lenient_string esc_content lenient_number u Hu).
    + apply IHe in H as (w & vs & E & Hw & -> & ->). rewrite E.
      exists (u ++ w ++ [x5d]), vs. rewrite <- !app_assoc. repeat split; auto.
      * rewrite app_assoc. constructor. apply elements_ws; auto.
      * simpl app at 2. rewrite setValues_app. simpl. nsimpl. reflexivity.
      * len.
  - (* arrayValue *)
    intros ns id acc s pos ns' pos' rest H. cbn [arrayValue] in H.
    destruct (parseValue f ns s pos) as [ns1 p1 t1| |] eqn:Ev; try discriminate.
    apply IHv in Ev as (s1 & w & v & -> & Hs1 & Hv & Hst & -> & ->).
    destruct (skipSpace t1 (pos + lenN s1 + lenN w)) as [s2 pos2] eqn:Esk.
    apply skipSpace_spec in Esk as (u & -> & Hu & -> & Hn).
    destruct s2 as [|c r]; [discriminate|].
    unfold delimValueSeparator, delimEndArray in H.
    destruct (beqb_spec c x2c) as [->|Hc].
    + apply IHe in H as (w' & vs & -> & Hw' & -> & ->).
      exists (s1 ++ w ++ u ++ x2c :: w'), (v :: vs). repeat split.
      * repeat (rewrite <- ?app_assoc; simpl). reflexivity.
      * constructor; auto.
      * simpl layouts. simpl arrVs. rewrite <- !app_assoc. simpl app.
        rewrite lenN_app, lenN_layout. reflexivity.
      * len.
    + destruct (beqb_spec c x5d) as [->|Hc']; [|discriminate].
      injection H as <- <- <-. exists (s1 ++ w ++ u), [v]. repeat split.
      * repeat (rewrite <- ?app_assoc; simpl). reflexivity.
      * constructor; auto.
      * simpl layouts. rewrite app_nil_r. reflexivity.
      * len.
  - (* parseObject *)
    intros ns s pos ns' pos' rest H. cbn [parseObject] in H.
    destruct (skipSpace s pos) as [s1 pos1] eqn:Esk.
    apply skipSpace_spec in Esk as (u & -> & Hu & -> & Hn).
    destruct s1 as [|c r]; [discriminate|].
    unfold delimEndObject, delimString in H. destruct (beqb_spec c x7d) as [->|Hc].
    + injection H as <- <- <-. exists (u ++ [x7d]), [].
      rewrite <- app_assoc. repeat split; auto; [|len]. apply (v_obj0 ws lenient_string esc_content lenient_number u Hu).
    + destruct (beqb_spec c x22) as [->|Hc']; [|discriminate].
      apply IHm in H as (w & ms & -> & Hw & -> & ->).
      exists (u ++ x22 :: w ++ [x7d]), ms. repeat split; auto.
      * repeat (rewrite <- ?app_assoc; simpl). reflexivity.
      * replace (u ++ x22 :: w ++ [x7d]) with ((u ++ x22 :: w) ++ [x7d])
          by (rewrite <- app_assoc; reflexivity).
        constructor. auto.
      * rewrite <- app_assoc. simpl app. rewrite setValues_app. simpl. nsimpl. reflexivity.
      * len.
  - (* objectKey *)
    intros ns id acc s pos ns' pos' rest H. cbn [objectKey] in H.
    destruct (scanQuote s 0) as [i|] eqn:Eq; [|discriminate].
    apply scanQuote_spec in Eq as (k & b & -> & Hk & <-).
    rewrite firstn_app_exact in H by auto.
    rewrite (app_cons_assoc k x22 b), skipn_app_exact in H by (rewrite app_length; simpl; lia).
    destruct (skipSpace b (pos + 1 + N.of_nat (length k))) as [s2 pos2] eqn:Esk.
    apply skipSpace_spec in Esk as (u & -> & Hu & -> & Hn).
    destruct s2 as [|c r]; [discriminate|].
    unfold delimNameSeparator in H. destruct (beqb_spec c x3a) as [->|Hc]; [|discriminate].
    destruct (parseValue f ns r (pos + 1 + N.of_nat (length k) + lenN u + 1)) as [ns1 p1 t1| |] eqn:Ev;
      try discriminate.
    apply IHv in Ev as (s1 & w & v & -> & Hs1 & Hv & Hst & -> & ->).
    destruct (skipSpace t1 _) as [s3 pos3] eqn:Esk in H.
    apply skipSpace_spec in Esk as (u' & -> & Hu' & -> & Hn').
    destruct s3 as [|c r]; [discriminate|].
    unfold delimValueSeparator, delimEndObject, delimString in H.
    destruct (beqb_spec c x2c) as [->|Hc].
    + destruct (skipSpace r _) as [s4 pos4] eqn:Esk in H.
      apply skipSpace_spec in Esk as (u2 & -> & Hu2 & -> & Hn2).
      destruct s4 as [|c r4]; [discriminate|].
      destruct (beqb_spec c x22) as [->|Hc']; [|discriminate].
      apply IHm in H as (w' & ms & -> & Hw' & -> & ->).
      exists (k ++ x22 :: u ++ x3a :: s1 ++ w ++ u' ++ x2c :: u2 ++ x22 :: w'), ((k, v) :: ms). repeat split.
      * repeat (rewrite <- ?app_assoc; simpl). reflexivity.
      * intros s0 Hs0. constructor; auto.
      * simpl layoutm. simpl objVs. rewrite <- !app_assoc. simpl app.
        rewrite lenN_app, lenN_layout. reflexivity.
      * len.
    + destruct (beqb_spec c x7d) as [->|Hc']; [|discriminate].
      injection H as <- <- <-.
      exists (k ++ x22 :: u ++ x3a :: s1 ++ w ++ u'), [(k, v)]. repeat split.
      * repeat (rewrite <- ?app_assoc; simpl). reflexivity.
      * intros s0 Hs0. constructor; auto.
      * simpl layoutm. rewrite app_nil_r. reflexivity.
      * len.
Qed.
