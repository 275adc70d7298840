(* Lemmas for C49. *)
From Verif Require Import Bytes Types JsonSpec StrSpec Utf8 Utf8Proofs Parser Doc DocSpec ParserThms Options StreamSpec Stream.

(* ---- lines ---- *)

Lemma index_nonl p : no_newline p -> IndexByte p x0a = None.
Proof.
  induction p as [|c p IH]; intro H; [reflexivity|]. cbn [IndexByte]. destruct (beqb c x0a) eqn:E.
  - apply beqb_true in E. subst. destruct H. left. reflexivity.
  - rewrite IH; [reflexivity|]. intro K. apply H. right. exact K.
Qed.
Lemma index_nl p r : no_newline p -> IndexByte (p ++ x0a :: r) x0a = Some (length p).
Proof.
  induction p as [|c p IH]; intro H; cbn [app IndexByte length]; [rewrite beqb_refl; reflexivity|]. destruct (beqb c x0a) eqn:E.
  - apply beqb_true in E. subst. destruct H. left. reflexivity.
  - rewrite IH; [reflexivity|]. intro K. apply H. right. exact K.
Qed.
Lemma dropCR_text l : line_text l (dropCR l).
Proof.
  unfold dropCR, line_text, ends_cr. rewrite <- (rev_involutive l) at 1 3. destruct (rev l) as [|c r] eqn:E.
  - right. assert (l = []) as -> by (rewrite <- (rev_involutive l), E; reflexivity). split; [reflexivity|]. intros (u & K). destruct u; discriminate.
  - assert (L : l = rev r ++ [c]) by (rewrite <- (rev_involutive l), E; reflexivity). destruct (beqb c x0d) eqn:B.
    + apply beqb_true in B. subst c. left. reflexivity.
    + right. split; [rewrite L; reflexivity|]. intros (u & K). rewrite K in L. apply app_inj_tail in L as [_ <-]. rewrite beqb_refl in B. discriminate.
Qed.
Lemma line_text_unique l t t' : line_text l t -> line_text l t' -> t = t'.
Proof.
  intros [->|[-> A]] [B|[B C]]; try congruence.
  - apply app_inj_tail in B. tauto.
  - destruct C. exists t. congruence.
  - destruct A. exists t'. exact B.
Qed.
Lemma dropCR_cr t : dropCR (t ++ [x0d]) = t.
Proof. unfold dropCR. rewrite rev_app_distr. cbn. apply rev_involutive. Qed.
Lemma dropCR_no t : ~ ends_cr t -> dropCR t = t.
Proof. intro H. destruct (dropCR_text t) as [E|[E _]]; [|congruence]. destruct H. eexists. exact E. Qed.
Lemma ends_app a b : b <> [] -> ends_cr (a ++ b) -> ends_cr b.
Proof.
  intros N (u & E). destruct (exists_last N) as (b' & c & ->). exists b'. rewrite app_assoc in E. apply app_inj_tail in E as [_ ->]. reflexivity.
Qed.
Lemma dropCR_app a b : b <> [] -> dropCR (a ++ b) = a ++ dropCR b.
Proof.
  intro N. destruct (dropCR_text b) as [E|[E H]].
  - rewrite E at 1. rewrite app_assoc. apply dropCR_cr.
  - rewrite <- E in H. rewrite <- E. rewrite dropCR_no; [reflexivity|]. intro K. apply H, (ends_app a b N K).
Qed.
Lemma endsCR_true l : endsCR l = true -> l = removelast l ++ [x0d].
Proof.
  unfold endsCR. destruct (rev l) as [|c r] eqn:E; [discriminate|]. intro B. apply beqb_true in B. subst c.
  assert (L : l = rev r ++ [x0d]) by (rewrite <- (rev_involutive l), E; reflexivity). rewrite L at 2. rewrite removelast_last. exact L.
Qed.
Lemma endsCR_false l : endsCR l = false -> ~ ends_cr l.
Proof. unfold endsCR. intros H (u & ->). rewrite rev_app_distr in H. discriminate. Qed.

Lemma in_firstn {A} k (l : list A) x : In x (firstn k l) -> In x l.
Proof. intro H. rewrite <- (firstn_skipn k l). apply in_or_app. left. exact H. Qed.
Lemma in_skipn {A} k (l : list A) x : In x (skipn k l) -> In x l.
Proof. intro H. rewrite <- (firstn_skipn k l). apply in_or_app. right. exact H. Qed.
Lemma skip_cons k (l : bytes) r : (k <= length l)%nat -> skipn k (l ++ r) = skipn k l ++ r.
Proof. intro H. rewrite skipn_app. replace (k - length l)%nat with O by lia. reflexivity. Qed.

Lemma readLines_line B early rest : (2 <= B)%nat -> forall n l, length l = n -> no_newline l -> forall fuel acc, (n < fuel)%nat ->
  readLines fuel B early acc (l ++ x0a :: rest) = Some (Some (acc ++ dropCR l, rest)).
Proof.
  intros HB n. induction n as [n IH] using (well_founded_induction Wf_nat.lt_wf). intros l Ln Hl fuel acc Hf.
  destruct fuel as [|k]; [lia|]. cbn [readLines]. unfold ReadLine.
  destruct (Nat.lt_ge_cases (length l) B) as [Sm|Sm].
  - assert (F : firstn B (l ++ x0a :: rest) = l ++ x0a :: firstn (B - S (length l)) rest).
    { rewrite firstn_app, firstn_all2 by lia. replace (B - length l)%nat with (S (B - S (length l))) by lia. reflexivity. }
    rewrite F, index_nl by exact Hl. rewrite firstn_app, firstn_all, Nat.sub_diag. cbn [firstn]. rewrite app_nil_r.
    replace (skipn (S (length l)) (l ++ x0a :: rest)) with rest; [reflexivity|]. rewrite skipn_app, skipn_all2 by lia. replace (S (length l) - length l)%nat with 1%nat by lia. reflexivity.
  - assert (F : firstn B (l ++ x0a :: rest) = firstn B l). { rewrite firstn_app. replace (B - length l)%nat with O by lia. cbn [firstn]. apply app_nil_r. }
    rewrite F, index_nonl by (intro K; apply Hl, (in_firstn _ _ _ K)). rewrite app_length. cbn [length].
    destruct (Nat.leb_spec B (length l + S (length rest))); [|lia]. destruct (Nat.eqb_spec (length l + S (length rest)) B); [lia|]. rewrite andb_false_r. cbn [andb negb].
    rewrite skip_cons by lia. destruct (endsCR (firstn B l)) eqn:E.
    + pose proof (endsCR_true _ E) as C. change (x0d :: skipn B l ++ x0a :: rest) with ((x0d :: skipn B l) ++ x0a :: rest).
      assert (D : l = removelast (firstn B l) ++ x0d :: skipn B l). { rewrite <- (firstn_skipn B l) at 1. rewrite C at 1. rewrite <- app_assoc. reflexivity. }
      rewrite (IH (length (x0d :: skipn B l))); [| | reflexivity | | ].
      * rewrite <- app_assoc, <- dropCR_app by discriminate. rewrite <- D. reflexivity.
      * cbn [length]. rewrite skipn_length. lia.
      * intros [K|K]; [discriminate K|]. apply Hl, (in_skipn _ _ _ K).
      * cbn [length]. rewrite skipn_length. lia.
    + rewrite (IH (length (skipn B l))); [| | reflexivity | | ].
      * rewrite <- app_assoc. do 3 f_equal. f_equal. destruct (skipn B l) as [|c u] eqn:U.
        -- cbn [dropCR rev]. assert (Q : firstn B l = l) by (rewrite <- (firstn_skipn B l) at 2; rewrite U, app_nil_r; reflexivity).
           rewrite Q in *. rewrite dropCR_no by (apply endsCR_false, E). apply app_nil_r.
        -- rewrite <- dropCR_app by discriminate. rewrite <- U, firstn_skipn. reflexivity.
      * rewrite skipn_length. lia.
      * intro K. apply Hl, (in_skipn _ _ _ K).
      * rewrite skipn_length. lia.
Qed.
Lemma readLines_end B early fuel acc : (0 < B)%nat -> (0 < fuel)%nat -> readLines fuel B early acc [] = Some None.
Proof. intros H F. destruct fuel; [lia|]. cbn [readLines]. unfold ReadLine. rewrite firstn_nil. cbn [IndexByte length]. destruct (Nat.leb_spec B 0); [lia|]. reflexivity. Qed.
Lemma readLines_last B early fuel acc s : s <> [] -> no_newline s -> (length s < B)%nat -> (0 < fuel)%nat -> readLines fuel B early acc s = Some (Some (acc ++ s, [])).
Proof.
  intros N H L F. destruct fuel; [lia|]. cbn [readLines]. unfold ReadLine. rewrite firstn_all2, index_nonl by (auto; lia). destruct (Nat.leb_spec B (length s)); [lia|].
  cbn [andb]. destruct s; [contradiction|reflexivity].
Qed.
(* a last line that fills the buffer is dropped *)
Lemma readLines_full B fuel acc s : (0 < B)%nat -> no_newline s -> ~ ends_cr s -> length s = B -> (1 < fuel)%nat -> readLines fuel B false acc s = Some None.
Proof.
  intros HB H E L F. destruct fuel as [|k]; [lia|]. cbn [readLines]. unfold ReadLine at 1. rewrite firstn_all2, index_nonl by (auto; lia).
  destruct (Nat.leb_spec B (length s)); [|lia]. cbn [andb negb]. destruct (endsCR s) eqn:C; [destruct E; eexists; apply endsCR_true, C|].
  rewrite skipn_all2 by lia. apply readLines_end; lia.
Qed.

(* ---- trailing whitespace ---- *)

Lemma space_iff r : IsSpaceRune r = true <-> white_space r.
Proof.
  unfold IsSpaceRune, white_space, between. rewrite !orb_true_iff, !andb_true_iff, !N.leb_le, !N.eqb_eq. cbn [In]. split; [intros; lia|intros; lia].
Qed.
Lemma space_scalar r : white_space r -> scalar r.
Proof. unfold white_space, scalar. cbn [In]. lia. Qed.
Lemma onlySpace_iff fuel s : (length s <= fuel)%nat -> (onlySpace fuel s = true <-> spaces s).
Proof.
  revert s. induction fuel as [|k IH]; intros s L.
  - destruct s; [|cbn in L; lia]. split; [intros _; exists []; split; [constructor|reflexivity]|reflexivity].
  - destruct s as [|c s]; [split; [intros _; exists []; split; [constructor|reflexivity]|reflexivity]|]. cbn [onlySpace].
    destruct (decode_inv c s) as [(r & t & S & E & D)|(D & _)]; rewrite D.
    + rewrite E at 1. rewrite skipn_app, skipn_all, Nat.sub_diag. cbn [skipn app]. pose proof (utf8_nonempty r) as N.
      assert (Lt : (length t <= k)%nat). { apply (f_equal (@length _)) in E. rewrite app_length in E. cbn [length] in *. destruct (utf8 r); [contradiction|cbn [length] in *; lia]. }
      rewrite andb_true_iff, (IH t Lt), space_iff. rewrite E. split.
      * intros (W & rs & F & ->). exists (r :: rs). split; [constructor; auto|reflexivity].
      * intros (rs & F & Q). destruct F as [|r' rs W F]; [destruct (utf8 r); [contradiction|discriminate]|]. change (utf8s (r' :: rs)) with (utf8 r' ++ utf8s rs) in Q.
        apply utf8_prefix in Q as [-> ->]; auto using space_scalar. split; auto. exists rs. auto.
    + cbn [andb]. split; [discriminate|]. intros (rs & F & Q). destruct F as [|r' rs W F]; [discriminate|]. destruct (decode_bad c s D r' (utf8s rs) (space_scalar _ W) Q).
Qed.

(* ---- decoding a line ---- *)

(* what Decode does once it has the line *)
Definition after (w : world) (r : ref) (t rest : bytes) : res (world * bytes * lineResult) :=
  let! p := Document_Parse w r t in
  match p with
  | (w, (n, tail, Some e)) => Ok (w, rest, LParse e)
  | (w, (n, tail, None)) => Ok (w, rest, if onlySpace (length tail) tail then LNode n else LTail)
  end.
Lemma Decode_line B early w r line rest : (2 <= B)%nat -> no_newline line -> LineDecoder_Decode B early w r (line ++ x0a :: rest) = after w r (dropCR line) rest.
Proof.
  intros HB H. unfold LineDecoder_Decode. rewrite (readLines_line B early rest HB (length line) line eq_refl H); [reflexivity|]. rewrite app_length. lia.
Qed.
Lemma Decode_end B early w r : (0 < B)%nat -> LineDecoder_Decode B early w r [] = Ok (w, [], LEOF).
Proof. intro H. unfold LineDecoder_Decode. rewrite readLines_end by (cbn; lia). reflexivity. Qed.
Lemma Decode_last B early w r s : s <> [] -> no_newline s -> (length s < B)%nat -> LineDecoder_Decode B early w r s = after w r s [].
Proof. intros N H L. unfold LineDecoder_Decode. rewrite readLines_last by (auto; lia). reflexivity. Qed.
Lemma Decode_lost B w r s : (0 < B)%nat -> no_newline s -> ~ ends_cr s -> length s = B -> LineDecoder_Decode B false w r s = Ok (w, [], LEOF).
Proof. intros HB H E L. unfold LineDecoder_Decode. rewrite readLines_full by (auto; lia). reflexivity. Qed.

Lemma after_iff w r t rest v : r < length w ->
  (exists w' n, after w r t rest = Ok (w', rest, LNode n) /\ tree_of w' n v) <-> line_value v t.
Proof.
  intro R. split.
  - intros (w' & n & A & T). unfold after in A. destruct (Document_Parse w r t) as [[w1 [[n1 tail] [e|]]]| |] eqn:P; cbn in A; try discriminate.
    destruct (onlySpace (length tail) tail) eqn:O; [|discriminate]. injection A as <- <-.
    destruct (proj1 (Parse_tree_iff w r t v tail) (ex_intro _ w1 (ex_intro _ n1 (conj P T)))) as (_ & s1 & x & E & W & V & K).
    exists s1, x, tail. split; [exact E|]. split; [exact W|]. split; [exact V|]. split; [exact K|]. apply (onlySpace_iff (length tail)); auto.
  - intros (s1 & x & tail & E & W & V & K & Sp).
    destruct (proj2 (Parse_tree_iff w r t v tail)) as (w' & n & P & T); [split; [exact R|]; exists s1, x; auto|].
    exists w', n. split; [|exact T]. unfold after. rewrite P. cbn. rewrite (proj2 (onlySpace_iff (length tail) tail (le_n _)) Sp). reflexivity.
Qed.
Lemma Decode_iff B early w r line t rest v : (2 <= B)%nat -> r < length w -> no_newline line -> line_text line t ->
  (exists w' n, LineDecoder_Decode B early w r (line ++ x0a :: rest) = Ok (w', rest, LNode n) /\ tree_of w' n v) <-> line_value v t.
Proof.
  intros HB R H L. rewrite (Decode_line B early w r line rest HB H), (line_text_unique _ _ _ (dropCR_text line) L). apply after_iff. exact R.
Qed.

Lemma lenient_no_cr v w : lenient_value v w -> ~ ends_cr w.
Proof.
  intros V (u & E).
  assert (Q : forall c x d, c :: x ++ [d] = u ++ [x0d] -> d = x0d). { intros c x d H. change (c :: x ++ [d]) with ((c :: x) ++ [d]) in H. apply app_inj_tail in H. tauto. }
  destruct V as [x _|x (c & x' & -> & C & F)| | | |s _|vs x _|s _|ms x _].
  - apply Q in E. discriminate.
  - destruct u as [|c' u]; [injection E as -> _; destruct C as [C|C]; [discriminate|cbv in C; destruct C as [C _]; apply C; reflexivity]|]. injection E as _ ->.
    apply Forall_app in F as [_ F]. inversion F as [|? ? K _]. apply K. left. right. right. right. reflexivity.
  - change (str "true") with ([x74; x72; x75] ++ [x65]) in E. apply app_inj_tail in E as [_ E]. discriminate.
  - change (str "false") with ([x66; x61; x6c; x73] ++ [x65]) in E. apply app_inj_tail in E as [_ E]. discriminate.
  - change (str "null") with ([x6e; x75; x6c] ++ [x6c]) in E. apply app_inj_tail in E as [_ E]. discriminate.
  - apply Q in E. discriminate.
  - apply Q in E. discriminate.
  - apply Q in E. discriminate.
  - apply Q in E. discriminate.
Qed.

Lemma putDoc_length w r x : length (putDoc w r x) = length w.
Proof. unfold putDoc. revert r. induction w as [|d w IH]; intro r; [reflexivity|]. destruct r; cbn [replaceNth length]; [reflexivity|]. rewrite IH. reflexivity. Qed.
Lemma after_keeps w r t rest w' s' o m v : after w r t rest = Ok (w', s', o) -> length w' = length w /\ (tree_of w m v -> tree_of w' m v).
Proof.
  unfold after. destruct (Document_Parse w r t) as [[w1 [[n1 tail] e]]| |] eqn:P; cbn; [|discriminate|discriminate]. intro A.
  assert (w' = w1) as -> by (destruct e; [injection A as <- _ _; reflexivity|injection A as <- _ _; reflexivity]). split; [|apply (C07_trees _ _ _ _ _ _ _ m v P)].
  revert P. unfold Document_Parse. destruct (nth_error w r) eqn:Hd; [|discriminate]. destruct (parseNodes _ t) as [ns []]; [| |discriminate]; intro P; injection P as <- _ _ _; apply putDoc_length.
Qed.
Lemma stream_cons t ts : stream (t :: ts) = t ++ x0a :: stream ts.
Proof. unfold stream. cbn [map concat]. rewrite <- app_assoc. reflexivity. Qed.

Lemma decodes_stream B early r : (2 <= B)%nat -> forall ls ts, Forall2 line_text ls ts -> forall vs, Forall2 line_value vs ts -> Forall no_newline ls ->
  forall w, r < length w -> forall ms us, Forall2 (tree_of w) ms us ->
  exists w' ns, decodes B early r w (stream ls) w' ns /\ Forall2 (tree_of w') ns vs /\ Forall2 (tree_of w') ms us.
Proof.
  intros HB ls ts L. induction L as [|l t ls ts Hl L IH]; intros vs V F w R ms us M.
  - inversion V; subst. exists w, []. split; [apply de_end, Decode_end; lia|]. split; [constructor|exact M].
  - inversion V as [|v ? vs' ? Hv V']; subst. inversion F as [|? ? Fl F']; subst. rewrite stream_cons.
    destruct (proj2 (Decode_iff B early w r l t (stream ls) v HB R Fl Hl) Hv) as (w1 & n & D & T).
    assert (K : forall m u, length w1 = length w /\ (tree_of w m u -> tree_of w1 m u)). { intros m u. rewrite (Decode_line B early w r l (stream ls) HB Fl) in D. apply (after_keeps _ _ _ _ _ _ _ m u D). }
    assert (M1 : Forall2 (tree_of w1) ms us). { clear - K M. induction M as [|m u ms us Hm M IH]; constructor; [apply K; exact Hm|exact IH]. }
    destruct (IH vs' V' F' w1 ltac:(rewrite (proj1 (K n v)); exact R) (n :: ms) (v :: us)) as (w' & ns & Ds & T' & M'); [constructor; assumption|].
    inversion M' as [|? ? ? ? Hn M2]; subst. exists w', (n :: ns). split; [eapply de_next; eassumption|]. split; [constructor; assumption|assumption].
Qed.
Lemma decodes_lines B early r w ls ts vs : (2 <= B)%nat -> r < length w -> Forall no_newline ls -> Forall2 line_text ls ts -> Forall2 line_value vs ts ->
  exists w' ns, decodes B early r w (stream ls) w' ns /\ Forall2 (tree_of w') ns vs.
Proof. intros HB R F L V. destruct (decodes_stream B early r HB ls ts L vs V F w R [] [] (Forall2_nil _)) as (w' & ns & D & T & _). eauto. Qed.

Lemma round_trip B early r w ts vs : (2 <= B)%nat -> r < length w -> Forall2 lenient_value vs ts -> Forall no_newline ts ->
  exists w' ns, decodes B early r w (concat (map (fun t => LineEncoder_Encode (Some t)) ts)) w' ns /\ Forall2 (tree_of w') ns vs.
Proof.
  intros HB R V F. apply (decodes_lines B early r w ts ts vs HB R F).
  - clear - V. induction V as [|v t vs ts H V IH]; constructor; [right; split; [reflexivity|apply (lenient_no_cr v t H)]|exact IH].
  - clear - V. induction V as [|v t vs ts H V IH]; constructor; [|exact IH]. exists [], t, []. rewrite app_nil_r. split; [reflexivity|]. split; [constructor|]. split; [exact H|]. split; [intros _; exact I|]. exists []. split; [constructor|reflexivity].
Qed.

(* The results of Decode are determined. *)
Lemma decodes_unique B early r w s w1 ns1 w2 ns2 : decodes B early r w s w1 ns1 -> decodes B early r w s w2 ns2 -> w1 = w2 /\ ns1 = ns2.
Proof.
  intro D. revert w2 ns2. induction D as [w s w' E|w s w1 s1 n w' ns E D IH]; intros w2 ns2 D2; inversion D2; subst; rewrite E in *; try discriminate.
  - match goal with H : Ok _ = Ok _ |- _ => injection H as <- end. auto.
  - match goal with H : Ok _ = Ok _ |- _ => injection H as <- <- <- end. destruct (IH w2 ns0) as [-> ->]; auto.
Qed.

Definition ml : bytes := x5b :: x31 :: x2c :: x0a :: x32 :: [x5d].   (* [1, newline 2] *)
Lemma ml_refuted : exists v t, rfc_value v t /\ forall B early w r, (2 <= B)%nat -> r < length w ->
  ~ exists w' n, decodes B early r w (LineEncoder_Encode (Some t)) w' [n] /\ tree_of w' n v.
Proof.
  exists (JArr [JNum [x31]; JNum [x32]]), ml. split.
  - apply (v_arr ws rfc_chars rfc_chars rfc_number [JNum [x31]; JNum [x32]] [x31; x2c; x0a; x32]).
    assert (D : forall d, digit19 d -> rfc_value (JNum [d]) [d]). { intros d H. apply v_num. apply (rfc_num [] [d] [] []); [auto|apply int_nz; [exact H|constructor]|constructor|constructor]. }
    apply (el_cons ws rfc_chars rfc_chars rfc_number [] (JNum [x31]) [x31] [] [JNum [x32]] [x0a; x32]); [constructor|apply D; cbv; split; discriminate|constructor|].
    apply (el_one ws rfc_chars rfc_chars rfc_number [x0a] (JNum [x32]) [x32] []); [constructor; [right; right; left; reflexivity|constructor]|apply D; cbv; split; discriminate|constructor].
  - intros B early w r HB R (w' & n & D & _). inversion D as [|? ? w1 s9 ? ? ? E _]; subst. revert E.
    change (LineEncoder_Encode (Some ml)) with ([x5b; x31; x2c] ++ x0a :: [x32; x5d; x0a]). rewrite Decode_line; [|exact HB|intros [K|[K|[K|[]]]]; discriminate].
    change (dropCR [x5b; x31; x2c]) with [x5b; x31; x2c]. unfold after. destruct (Document_Parse w r [x5b; x31; x2c]) as [[w2 [[n2 tail] [e|]]]| |] eqn:P; [discriminate| |discriminate|discriminate]. intros _.
    apply Parse_ok_iff in P as (d & s1 & x & v & _ & E & W & V & _). clear - E W V.
    assert (I : forall c, In c x -> In c [x5b; x31; x2c]). { intros c H. rewrite E. apply in_or_app. right. apply in_or_app. left. exact H. }
    assert (N : forall c, c <> x5b -> c <> x31 -> c <> x2c -> In c x -> False). { intros c A1 A2 A3 H. destruct (I c H) as [K|[K|[K|[]]]]; congruence. }
    destruct V as [x _|x (c & x' & -> & C & F)| | | |s _|vs x _|s _|ms x _].
    + apply (N x22); [discriminate|discriminate|discriminate|]. left. reflexivity.
    + destruct W as [|c1 s1 W1 W]; injection E as E _; subst; [destruct C as [C|C]; [discriminate|cbv in C; destruct C as [_ C]; apply C; reflexivity]|].
      destruct W1 as [K|[K|[K|K]]]; discriminate.
    + apply (N x74); [discriminate|discriminate|discriminate|]. left. reflexivity.
    + apply (N x66); [discriminate|discriminate|discriminate|]. left. reflexivity.
    + apply (N x6e); [discriminate|discriminate|discriminate|]. left. reflexivity.
    + apply (N x5d); [discriminate|discriminate|discriminate|]. right. apply in_or_app. right. left. reflexivity.
    + apply (N x5d); [discriminate|discriminate|discriminate|]. right. apply in_or_app. right. left. reflexivity.
    + apply (N x7d); [discriminate|discriminate|discriminate|]. right. apply in_or_app. right. left. reflexivity.
    + apply (N x7d); [discriminate|discriminate|discriminate|]. right. apply in_or_app. right. left. reflexivity.
Qed.
Lemma takes_line B early w r line rest : (2 <= B)%nat -> r < length w -> no_newline line ->
  exists w' o, LineDecoder_Decode B early w r (line ++ x0a :: rest) = Ok (w', rest, o) /\ o <> LEOF /\ length w' = length w.
Proof.
  intros HB R H. rewrite (Decode_line B early w r line rest HB H). destruct (Parse_total w r (dropCR line) R) as (w1 & n & tail & e & P).
  assert (exists o, after w r (dropCR line) rest = Ok (w1, rest, o) /\ o <> LEOF) as (o & A & N).
  { unfold after. rewrite P. cbn. destruct e; [eexists; split; [reflexivity|discriminate]|]. eexists; split; [reflexivity|]. destruct (onlySpace _ _); discriminate. }
  exists w1, o. split; [exact A|]. split; [exact N|]. exact (proj1 (after_keeps _ _ _ _ _ _ _ n JNull A)).
Qed.
Lemma last_iff B early w r s v : r < length w -> s <> [] -> no_newline s -> (length s < B)%nat ->
  (exists w' n, LineDecoder_Decode B early w r s = Ok (w', [], LNode n) /\ tree_of w' n v) <-> line_value v s.
Proof. intros R N H L. rewrite (Decode_last B early w r s N H L). apply after_iff. exact R. Qed.
Lemma C49_example_lem : Forall2 lenient_value [JArr [JTrue; JNull]; JNum (str "-12"); JStr (str "a longer string")]
    [str "[true, null ]"; str "-12"; x22 :: str "a longer string" ++ [x22]] /\
  (exists w' n, LineDecoder_Decode 16 false [mkDoc [] 0] 0 (x22 :: str "a longer string" ++ [x22; x0d; x0a]) = Ok (w', [], LNode n)) /\
  LineDecoder_Decode 16 false [mkDoc [] 0] 0 (str "[1,2,3,4,5,6,78]") = Ok ([mkDoc [] 0], [], LEOF).
Proof.
  split; [|split; [eexists; eexists; vm_compute; reflexivity|vm_compute; reflexivity]].
  constructor; [|constructor; [|constructor; [|constructor]]].
  - apply (v_arr ws lenient_string esc_content lenient_number [JTrue; JNull] (str "true, null ")).
    apply (el_cons ws lenient_string esc_content lenient_number [] JTrue (str "true") [] [JNull] (str " null ")); [constructor|constructor|constructor|].
    apply (el_one ws lenient_string esc_content lenient_number [x20] JNull (str "null") [x20]); [constructor; [left; reflexivity|constructor]|constructor|constructor; [left; reflexivity|constructor]].
  - apply v_num. exists x2d, (str "12"). split; [reflexivity|]. split; [left; reflexivity|]. constructor; [|constructor; [|constructor]]; intros [[K|[K|[K|K]]]|[K|[K|K]]]; discriminate.
  - apply v_str. apply ls_plain.
    + intro K. cbn in K. repeat (destruct K as [K|K]; [discriminate|]). exact K.
    + intros u K. change (str "a longer string") with (str "a longer strin" ++ [x67]) in K. apply app_inj_tail in K as [_ K]. discriminate.
Qed.
