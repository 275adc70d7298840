(* C79: where the parser reports an error, and what it says it wanted. *)
From Verif Require Import Bytes Tables Types JsonSpec Parser LexProofs ParserProofs ParserErr Doc DocSpec ParserThms ErrPosSpec.
Local Open Scope nat_scope.

(* [local k C P s pos p ty g w]: the error is at the end of a prefix u of the text, it comes whatever follows the
   token reported, and u goes on with what was wanted. *)
Definition local (k : nat) (C : bytes -> Prop) (P : nat -> bytes -> N -> pres) (s : bytes) (pos p ty : N) (g : token) (w : wanted) : Prop :=
  exists u r, s = u ++ tok g ++ r /\ tok g <> [] /\ p = (pos + lenN u)%N /\ goes_with ty w /\ (exists x, would_do w x) /\
    (forall x, would_do w x -> C (u ++ x)) /\
    (forall x F, 3 * length (u ++ tok g ++ x) + k <= F -> P F (u ++ tok g ++ x) pos = PErr (ParseError p ty g w)).

Lemma local_app k k' (C C' : bytes -> Prop) P Q a s pos p ty g w :
  (forall x F e, hd_error x = hd_error s -> 3 * length (a ++ x) + k <= S F -> Q F x (pos + lenN a)%N = PErr e -> P (S F) (a ++ x) pos = PErr e) ->
  (forall u, C' u -> C (a ++ u)) -> 1 <= k -> k' + 1 <= 3 * length a + k ->
  local k' C' Q s (pos + lenN a)%N p ty g w -> local k C P (a ++ s) pos p ty g w.
Proof.
  intros HP HC K1 K (u & r & -> & Ht & -> & Hg & Hx & Hw & He). exists (a ++ u), r. rewrite <- app_assoc. split; [reflexivity|]. split; [exact Ht|]. split; [rewrite lenN_app; lia|]. split; [exact Hg|]. split; [exact Hx|]. split.
  - intros x D. rewrite <- app_assoc. apply HC, Hw, D.
  - intros x F L. rewrite <- app_assoc in *. destruct F as [|F]; [lia|]. apply HP; [|exact L|].
    + destruct u; [destruct (tok g); [congruence|reflexivity]|reflexivity].
    + apply He. rewrite app_length in L. lia.
Qed.
Lemma local_here k (C : bytes -> Prop) P a g r pos ty w :
  tok g <> [] -> 1 <= k -> goes_with ty w -> (exists x, would_do w x) -> (forall x, would_do w x -> C (a ++ x)) ->
  (forall x F, 3 * length (a ++ tok g ++ x) + k <= S F -> P (S F) (a ++ tok g ++ x) pos = PErr (ParseError (pos + lenN a) ty g w)) ->
  local k C P (a ++ tok g ++ r) pos (pos + lenN a) ty g w.
Proof. intros Ht K Hg Hx Hw He. exists a, r. repeat split; auto. intros x F L. destruct F as [|F]; [lia|]. auto. Qed.

Definition Cv (u : bytes) : Prop := exists t s1 w v, u ++ t = s1 ++ w /\ ws s1 /\ len_value v w.
Definition Ca (u : bytes) : Prop := exists t vs, len_value (JArr vs) (x5b :: u ++ t).
Definition Ce (u : bytes) : Prop := exists t vs w, u ++ t = w ++ [x5d] /\ len_elements vs w.
Definition Co (u : bytes) : Prop := exists t ms, len_value (JObj ms) (x7b :: u ++ t).
Definition Cm (u : bytes) : Prop := exists t ms w, u ++ t = w ++ [x7d] /\ forall s0, ws s0 -> len_members ms (s0 ++ x22 :: w).

Definition local_at (f : nat) : Prop :=
  (forall ns s pos p ty g w, parseValue f ns s pos = PErr (ParseError p ty g w) -> local 1 Cv (fun F => parseValue F ns) s pos p ty g w) /\
  (forall ns s pos p ty g w, parseArray f ns s pos = PErr (ParseError p ty g w) -> local 3 Ca (fun F => parseArray F ns) s pos p ty g w) /\
  (forall ns id acc s pos p ty g w, arrayValue f ns id acc s pos = PErr (ParseError p ty g w) -> local 2 Ce (fun F => arrayValue F ns id acc) s pos p ty g w) /\
  (forall ns s pos p ty g w, parseObject f ns s pos = PErr (ParseError p ty g w) -> local 3 Co (fun F => parseObject F ns) s pos p ty g w) /\
  (forall ns id acc s pos p ty g w, objectKey f ns id acc s pos = PErr (ParseError p ty g w) -> local 2 Cm (fun F => objectKey F ns id acc) s pos p ty g w).

Lemma ws_nil' : ws []. Proof. constructor. Qed.
#[local] Hint Resolve ws_nil' : core.
Lemma null_value : len_value JNull (str "null"). Proof. constructor. Qed.
#[local] Hint Resolve null_value : core.

Lemma Cv_value u x t v : ws u -> len_value v (x ++ t) -> Cv (u ++ x).
Proof. intros Hu Hv. exists t, u, (x ++ t), v. rewrite <- app_assoc. auto. Qed.

Lemma literal_local ns info typ lit c r u p ty g w v pos :
  readLiteral ns info typ lit (c :: r) (pos + lenN u) = PErr (ParseError p ty g w) ->
  lit <> [] -> lit <> str "any value" -> ws u -> len_value v lit ->
  (forall F s r', skipSpace s pos = (c :: r', pos + lenN u)%N -> parseValue (S F) ns s pos = readLiteral ns info typ lit (c :: r') (pos + lenN u)) ->
  ~ ws_byte c -> goes_with typ (WantStr lit) ->
  local 1 Cv (fun F => parseValue F ns) (u ++ c :: r) pos p ty g w.
Proof.
  intros H Nl Na Hu Hv HP Hc Hg. unfold readLiteral, pdone in H. destruct (length lit <=? length (c :: r)) eqn:El; [|discriminate].
  destruct (bseqb _ _) eqn:Eb; [discriminate|]. injection H as <- <- <- <-. apply Nat.leb_le in El.
  assert (Lt : length (firstn (length lit) (c :: r)) = length lit) by (rewrite firstn_length; lia).
  assert (exists y, firstn (length lit) (c :: r) = c :: y) as (y & Ey). { destruct lit; [congruence|]. cbn [length firstn]. eauto. }
  rewrite <- (firstn_skipn (length lit) (c :: r)) at 1. apply (local_here 1 Cv _ u (GotStr (firstn (length lit) (c :: r)))); cbn [tok]; [rewrite Ey; discriminate|lia|exact Hg|exists lit; constructor; exact Na| |].
  - intros x D. inversion D; subst; [|apply (Cv_value u x [] v Hu); rewrite app_nil_r; assumption]. congruence.
  - intros x F L. rewrite Ey in *. cbn [app]. rewrite (HP F _ (y ++ x)) by (apply skipSpace_app; auto).
    unfold readLiteral, pdone. change (c :: y ++ x) with ((c :: y) ++ x). rewrite app_length, Lt.
    rewrite (proj2 (Nat.leb_le _ _)) by lia. rewrite firstn_app_exact by exact Lt. rewrite Eb. reflexivity.
Qed.

Ltac asc := repeat (rewrite <- ?app_assoc; cbn [app]).
Ltac perr := match goal with |- PErr (ParseError ?a _ _ _) = PErr (ParseError ?b _ _ _) => replace a with b by len; reflexivity end.
Ltac hdx Hx x := let c := fresh "c" in destruct x as [|c x]; [discriminate Hx|]; cbn [hd_error] in Hx; injection Hx as ->.

Lemma parse_local : forall f, local_at f.
Proof.
  induction f as [|f (IHv & IHa & IHe & IHo & IHm)].
  { repeat split; simpl; intros; discriminate. }
  repeat split.
  - intros ns s pos p ty g w H.
    destruct (skipSpace s pos) as [s1 pos1] eqn:Esk.
    pose proof Esk as Esk'. apply skipSpace_spec in Esk' as (u & -> & Hu & -> & Hn).
    destruct s1 as [|c r]; [erewrite pv_eof in H by eauto; discriminate|]. cbn [nonspace_head] in Hn.
    destruct (start_byte c) eqn:Ec.
    2:{ erewrite pv_bad in H by eauto; injection H as <- <- <- <-. apply (local_here 1 Cv _ u (GotByte c)); [discriminate|lia|constructor|exists (str "null"); econstructor; apply null_value| |].
        - intros x D. inversion D as [v x' Hv| | |]; subst; [|congruence]. apply (Cv_value u x [] v Hu). rewrite app_nil_r. exact Hv.
        - intros x F L. cbn [tok app]. eapply pv_bad; [apply skipSpace_app; auto|exact Ec]. }
    apply start_cases in Ec as [->|[->|[->|[->|[->|[->|Hd]]]]]].
    + erewrite pv_str in H by eauto. unfold pdone in H. destruct (readString r); discriminate.
    + erewrite pv_arr in H by eauto. apply IHa in H. rewrite app_cons_assoc. replace (pos + lenN u + 1)%N with (pos + lenN (u ++ [x5b]))%N in H by len. revert H. apply local_app; [| |lia|rewrite app_length; cbn [length]; lia].
      * intros x F e _ L E. rewrite <- app_cons_assoc. rewrite (pv_arr F ns _ x pos (pos + lenN u)) by (apply skipSpace_app; auto). rewrite <- E. f_equal. len.
      * intros z (t & vs & Hv). exists t, u, (x5b :: z ++ t), (JArr vs). asc. auto.
    + erewrite pv_obj in H by eauto. apply IHo in H. rewrite app_cons_assoc. replace (pos + lenN u + 1)%N with (pos + lenN (u ++ [x7b]))%N in H by len. revert H. apply local_app; [| |lia|rewrite app_length; cbn [length]; lia].
      * intros x F e _ L E. rewrite <- app_cons_assoc. rewrite (pv_obj F ns _ x pos (pos + lenN u)) by (apply skipSpace_app; auto). rewrite <- E. f_equal. len.
      * intros z (t & vs & Hv). exists t, u, (x7b :: z ++ t), (JObj vs). asc. auto.
    + erewrite pv_true in H by eauto. apply (literal_local _ _ _ _ _ _ _ _ _ _ _ JTrue) in H; [exact H|discriminate|discriminate|exact Hu|constructor| |exact Hn|constructor]. intros F s r' E. exact (pv_true _ _ _ _ _ _ E).
    + erewrite pv_false in H by eauto. apply (literal_local _ _ _ _ _ _ _ _ _ _ _ JFalse) in H; [exact H|discriminate|discriminate|exact Hu|constructor| |exact Hn|constructor]. intros F s r' E. exact (pv_false _ _ _ _ _ _ E).
    + erewrite pv_null in H by eauto. apply (literal_local _ _ _ _ _ _ _ _ _ _ _ JNull) in H; [exact H|discriminate|discriminate|exact Hu|constructor| |exact Hn|constructor]. intros F s r' E. exact (pv_null _ _ _ _ _ _ E).
    + erewrite pv_num in H by eauto. discriminate.
  - intros ns s pos p ty g w H. cbn [parseArray] in H.
    destruct (skipSpace s pos) as [s1 pos1] eqn:Esk.
    apply skipSpace_spec in Esk as (u & -> & Hu & -> & Hn).
    destruct s1 as [|c r]; [discriminate|]. destruct (beqb c delimEndArray) eqn:Ec; [discriminate|]. cbn [nonspace_head] in Hn.
    apply IHe in H. revert H. apply local_app; [| |lia|lia].
    + intros x F e Hx L E. hdx Hx x. cbn [parseArray]. rewrite skipSpace_app by auto. rewrite Ec. exact E.
    + intros z (t & vs & w0 & E & He). exists t, vs. asc. rewrite E, app_assoc. constructor. apply elements_ws; auto.
  - intros ns id acc s pos p ty g w H. cbn [arrayValue] in H.
    destruct (parseValue f ns s pos) as [ns1 p1 t1|e|] eqn:Ev; try discriminate.
    + apply parse_sound in Ev as (s1 & w0 & v & -> & Hs1 & Hv & Hst & -> & ->).
      destruct (skipSpace t1 (pos + lenN s1 + lenN w0)) as [s2 pos2] eqn:Esk.
      apply skipSpace_spec in Esk as (u & -> & Hu & -> & Hn). cbn [nonspace_head] in Hn.
      destruct s2 as [|c r]; [discriminate|].
      assert (Hst' : forall x, is_num v = true -> num_stop (u ++ c :: x)). { intros x N. specialize (Hst N). destruct u; exact Hst. }
      assert (St : forall x F, 3 * length (s1 ++ w0 ++ u ++ c :: x) + 2 <= S F -> parseValue F ns (s1 ++ w0 ++ u ++ c :: x) pos = POk (ns ++ layout (lenN ns) v) (pos + lenN s1 + lenN w0) (u ++ c :: x)).
      { intros x F L. apply (proj1 parse_complete v w0 Hv); auto. rewrite !app_length in L. lia. }
      destruct (beqb c delimValueSeparator) eqn:Ec.
      * apply IHe in H. apply beqb_true in Ec. subst c. replace (s1 ++ w0 ++ u ++ delimValueSeparator :: r) with ((s1 ++ w0 ++ u ++ [delimValueSeparator]) ++ r) by (asc; reflexivity).
        replace (pos + lenN s1 + lenN w0 + lenN u + 1)%N with (pos + lenN (s1 ++ w0 ++ u ++ [delimValueSeparator]))%N in H by len. revert H. apply local_app; [| |lia|rewrite !app_length; cbn [length]; lia].
        -- intros x F e _ L E. revert L. asc. intro L. cbn [arrayValue]. rewrite St by exact L. rewrite skipSpace_app by auto. change (beqb delimValueSeparator delimValueSeparator) with true. cbv iota.
           rewrite <- E. f_equal. len.
        -- intros z (t & vs & w1 & E & He). exists t, (v :: vs), (s1 ++ w0 ++ u ++ x2c :: w1). asc. rewrite E. split; [reflexivity|]. constructor; auto.
      * destruct (beqb c delimEndArray) eqn:Ed; [discriminate|]. injection H as <- <- <- <-.
        replace (s1 ++ w0 ++ u ++ c :: r) with ((s1 ++ w0 ++ u) ++ tok (GotByte c) ++ r) by (cbn [tok]; asc; reflexivity).
        replace (pos + lenN s1 + lenN w0 + lenN u)%N with (pos + lenN (s1 ++ w0 ++ u))%N by len. apply local_here; [discriminate|lia|constructor|eexists; (apply wd_rune || (apply wd_runes; left; reflexivity))| |].
        -- intros x D. inversion D as [| | |cs b I]; subst. destruct I as [<-|[<-|[]]].
           ++ exists (str "null" ++ [x5d]), [v; JNull], (s1 ++ w0 ++ u ++ x2c :: str "null"). split; [asc; reflexivity|]. constructor; auto. change (str "null") with ([] ++ str "null" ++ []). constructor; auto.
           ++ exists [], [v], (s1 ++ w0 ++ u). split; [rewrite app_nil_r; reflexivity|]. constructor; auto.
        -- intros x F L. cbn [tok] in *. revert L. asc. intro L. cbn [arrayValue]. rewrite St by exact L. rewrite skipSpace_app by auto. rewrite Ec, Ed. perr.
    + injection H as ->. apply IHv in Ev. replace pos with (pos + lenN (@nil byte))%N in Ev by len. change s with ([] ++ s). revert Ev. apply local_app; [| |lia|cbn [length]; lia].
      * intros x F e _ L E. replace (pos + lenN (@nil byte))%N with pos in E by len. cbn [app arrayValue]. rewrite E. reflexivity.
      * intros z (t & s1 & w0 & v & E & Hs & Hv). exists (t ++ [x5d]), [v], (s1 ++ w0 ++ []). cbn [app]. rewrite app_assoc, E, app_nil_r. split; [reflexivity|]. rewrite <- (app_nil_r w0). constructor; auto.
  - intros ns s pos p ty g w H. cbn [parseObject] in H.
    destruct (skipSpace s pos) as [s1 pos1] eqn:Esk.
    apply skipSpace_spec in Esk as (u & -> & Hu & -> & Hn).
    destruct s1 as [|c r]; [discriminate|]. cbn [nonspace_head] in Hn. destruct (beqb c delimEndObject) eqn:Ec; [discriminate|].
    destruct (beqb c delimString) eqn:Ed.
    + apply IHm in H. apply beqb_true in Ed. subst c. rewrite app_cons_assoc. replace (pos + lenN u + 1)%N with (pos + lenN (u ++ [delimString]))%N in H by len. revert H. apply local_app; [| |lia|rewrite app_length; cbn [length]; lia].
      * intros x F e _ L E. rewrite <- app_cons_assoc. cbn [parseObject]. rewrite skipSpace_app by auto. rewrite Ec. change (beqb delimString delimString) with true. cbv iota. rewrite <- E. f_equal. len.
      * intros z (t & ms & w0 & E & Hm). exists t, ms. asc. rewrite E. change (x7b :: u ++ delimString :: w0 ++ [x7d]) with (x7b :: u ++ (x22 :: w0) ++ [x7d]). rewrite app_assoc. constructor. auto.
    + injection H as <- <- <- <-. apply (local_here 3 Co _ u (GotByte c)); [discriminate|lia|constructor|eexists; (apply wd_rune || (apply wd_runes; left; reflexivity))| |].
      * intros x D. inversion D as [| | |cs b I]; subst. destruct I as [<-|[<-|[]]].
        -- exists [], []. rewrite app_nil_r. constructor; auto.
        -- exists (x22 :: x3a :: str "null" ++ [x7d]), [([], JNull)].
           replace (x7b :: (u ++ [delimString]) ++ x22 :: x3a :: str "null" ++ [x7d]) with (x7b :: (u ++ x22 :: [] ++ x22 :: [] ++ x3a :: [] ++ str "null" ++ []) ++ [x7d]) by (asc; reflexivity).
           constructor. apply (mem_one ws lenient_string esc_content lenient_number u [] [] [] JNull (str "null") []); auto. constructor.
      * intros x F L. cbn [tok app parseObject]. rewrite skipSpace_app by auto. rewrite Ec, Ed. reflexivity.
  - intros ns id acc s pos p ty g w H. cbn [objectKey] in H.
    destruct (scanQuote s 0) as [i|] eqn:Eq; [|discriminate].
    apply scanQuote_spec in Eq as (k & b & -> & Hk & <-).
    rewrite (app_cons_assoc k x22 b), skipn_app_exact in H by (rewrite app_length; simpl; lia).
    destruct (skipSpace b (pos + 1 + N.of_nat (length k))) as [s2 pos2] eqn:Esk.
    apply skipSpace_spec in Esk as (u & -> & Hu & -> & Hn).
    destruct s2 as [|c r]; [discriminate|]. cbn [nonspace_head] in Hn.
    assert (K1 : forall x, scanQuote (k ++ x22 :: x) 0 = Some (length k)). { intro x. apply scanQuote_spec. exists k, x. auto. }
    assert (K2 : forall x, skipn (S (length k)) (k ++ x22 :: x) = x). { intro x. rewrite (app_cons_assoc k x22 x), skipn_app_exact; [reflexivity|rewrite app_length; simpl; lia]. }
    assert (K3 : forall x, firstn (length k) (k ++ x22 :: x) = k). { intro x. apply firstn_app_exact. reflexivity. }
    assert (K4 : firstn (length k) ((k ++ [x22]) ++ u ++ c :: r) = k). { rewrite <- app_assoc. apply firstn_app_exact. reflexivity. }
    rewrite K4 in H. clear K4.
    destruct (beqb c delimNameSeparator) eqn:Ec.
    2:{ injection H as <- <- <- <-. replace (k ++ x22 :: u ++ c :: r) with ((k ++ x22 :: u) ++ tok (GotByte c) ++ r) by (cbn [tok]; asc; reflexivity).
        replace (pos + 1 + N.of_nat (length k) + lenN u)%N with (pos + lenN (k ++ x22 :: u))%N by len. apply local_here; [discriminate|lia|constructor|eexists; (apply wd_rune || (apply wd_runes; left; reflexivity))| |].
        - intros x D. inversion D; subst. exists (str "null" ++ [x7d]), [(k, JNull)], (k ++ x22 :: u ++ x3a :: [] ++ str "null" ++ []). split; [asc; reflexivity|]. intros s0 Hs0.
          apply (mem_one ws lenient_string esc_content lenient_number s0 k u [] JNull (str "null") []); auto.
        - intros x F L. cbn [tok]. asc. cbn [objectKey]. rewrite K1, K2, K3. rewrite skipSpace_app by auto. rewrite Ec. perr. }
    apply beqb_true in Ec. subst c.
    destruct (parseValue f ns r _) as [ns1 p1 t1|e|] eqn:Ev; try discriminate.
    + apply parse_sound in Ev as (s1 & w0 & v & -> & Hs1 & Hv & Hst & -> & ->).
      destruct (skipSpace t1 _) as [s3 pos3] eqn:Esk in H.
      apply skipSpace_spec in Esk as (u' & -> & Hu' & -> & Hn').
      destruct s3 as [|c3 r3]; [discriminate|]. cbn [nonspace_head] in Hn'.
      assert (Hst' : forall x, is_num v = true -> num_stop (u' ++ c3 :: x)). { intros x N. specialize (Hst N). destruct u'; exact Hst. }
      assert (St : forall x F q, 3 * length (k ++ x22 :: u ++ x3a :: s1 ++ w0 ++ u' ++ c3 :: x) + 2 <= S F -> parseValue F ns (s1 ++ w0 ++ u' ++ c3 :: x) q = POk (ns ++ layout (lenN ns) v) (q + lenN s1 + lenN w0) (u' ++ c3 :: x)).
      { intros x F q L. apply (proj1 parse_complete v w0 Hv); auto. repeat (rewrite app_length in L; cbn [length] in L). lia. }
      destruct (beqb c3 delimValueSeparator) eqn:E3.
      * destruct (skipSpace r3 _) as [s4 pos4] eqn:Esk in H.
        apply skipSpace_spec in Esk as (u2 & -> & Hu2 & -> & Hn2).
        destruct s4 as [|c4 r4]; [discriminate|]. cbn [nonspace_head] in Hn2. apply beqb_true in E3. subst c3.
        destruct (beqb c4 delimString) eqn:E4.
        -- apply IHm in H. apply beqb_true in E4. subst c4.
           set (a := k ++ x22 :: u ++ x3a :: s1 ++ w0 ++ u' ++ x2c :: u2 ++ [x22]).
           replace (k ++ x22 :: u ++ delimNameSeparator :: s1 ++ w0 ++ u' ++ delimValueSeparator :: u2 ++ delimString :: r4) with (a ++ r4) by (unfold a; asc; reflexivity).
           match type of H with local _ _ _ _ ?q _ _ _ _ => replace q with (pos + lenN a)%N in H by (unfold a; len) end. revert H. apply local_app; [| |lia|unfold a; rewrite !app_length; cbn [length]; lia].
           ++ intros x F e _ L E. unfold a in *. revert L. asc. intro L. cbn [objectKey]. rewrite K1, K2, K3. rewrite skipSpace_app by (auto; simpl; not_ws). change (beqb x3a delimNameSeparator) with true. cbv iota.
              rewrite St by exact L. rewrite skipSpace_app by (auto; simpl; not_ws). change (beqb delimValueSeparator delimValueSeparator) with true. cbv iota. rewrite skipSpace_app by (auto; simpl; not_ws). change (beqb x22 delimString) with true. cbv iota.
              rewrite <- E. f_equal. len.
           ++ intros z (t & ms & w1 & E & Hm). exists t, ((k, v) :: ms), (k ++ x22 :: u ++ x3a :: s1 ++ w0 ++ u' ++ x2c :: u2 ++ x22 :: w1). unfold a. asc. rewrite E. split; [reflexivity|]. intros s0 Hs0. constructor; auto.
        -- injection H as <- <- <- <-. set (a := k ++ x22 :: u ++ x3a :: s1 ++ w0 ++ u' ++ x2c :: u2).
           replace (k ++ x22 :: u ++ delimNameSeparator :: s1 ++ w0 ++ u' ++ delimValueSeparator :: u2 ++ c4 :: r4) with (a ++ tok (GotByte c4) ++ r4) by (unfold a; cbn [tok]; asc; reflexivity).
           match goal with |- local _ _ _ _ _ ?q _ _ _ => replace q with (pos + lenN a)%N by (unfold a; len) end. apply local_here; [discriminate|lia|constructor|eexists; (apply wd_rune || (apply wd_runes; left; reflexivity))| |].
           ++ intros x D. inversion D; subst. exists (x22 :: x3a :: str "null" ++ [x7d]), [(k, v); ([], JNull)], (k ++ x22 :: u ++ x3a :: s1 ++ w0 ++ u' ++ x2c :: u2 ++ x22 :: x22 :: x3a :: str "null").
              split; [unfold a; asc; reflexivity|]. intros s0 Hs0. constructor; auto.
              apply (mem_one ws lenient_string esc_content lenient_number u2 [] [] [] JNull (str "null") []); auto. constructor.
           ++ intros x F L. unfold a in *. cbn [tok] in *. revert L. asc. intro L. cbn [objectKey]. rewrite K1, K2, K3. rewrite skipSpace_app by (auto; simpl; not_ws). change (beqb x3a delimNameSeparator) with true. cbv iota.
              rewrite St by exact L. rewrite skipSpace_app by (auto; simpl; not_ws). change (beqb delimValueSeparator delimValueSeparator) with true. cbv iota. rewrite skipSpace_app by auto. rewrite E4. perr.
      * destruct (beqb c3 delimEndObject) eqn:E4; [discriminate|].
        injection H as <- <- <- <-. set (a := k ++ x22 :: u ++ x3a :: s1 ++ w0 ++ u').
        replace (k ++ x22 :: u ++ delimNameSeparator :: s1 ++ w0 ++ u' ++ c3 :: r3) with (a ++ tok (GotByte c3) ++ r3) by (unfold a; cbn [tok]; asc; reflexivity).
        match goal with |- local _ _ _ _ _ ?q _ _ _ => replace q with (pos + lenN a)%N by (unfold a; len) end. apply local_here; [discriminate|lia|constructor|eexists; (apply wd_rune || (apply wd_runes; left; reflexivity))| |].
        -- intros x D. inversion D as [| | |cs b I]; subst. destruct I as [<-|[<-|[]]].
           ++ exists (x22 :: x22 :: x3a :: str "null" ++ [x7d]), [(k, v); ([], JNull)], (k ++ x22 :: u ++ x3a :: s1 ++ w0 ++ u' ++ x2c :: x22 :: x22 :: x3a :: str "null").
              split; [unfold a; asc; reflexivity|]. intros s0 Hs0. constructor; auto.
              apply (mem_one ws lenient_string esc_content lenient_number [] [] [] [] JNull (str "null") []); auto. constructor.
           ++ exists [], [(k, v)], a. unfold a. split; [rewrite app_nil_r; reflexivity|]. intros s0 Hs0. constructor; auto.
        -- intros x F L. unfold a in *. cbn [tok] in *. revert L. asc. intro L. cbn [objectKey]. rewrite K1, K2, K3. rewrite skipSpace_app by (auto; simpl; not_ws). change (beqb x3a delimNameSeparator) with true. cbv iota.
           rewrite St by exact L. rewrite skipSpace_app by auto. rewrite E3, E4. perr.
    + injection H as ->. apply IHv in Ev.
      replace (k ++ x22 :: u ++ delimNameSeparator :: r) with ((k ++ x22 :: u ++ [x3a]) ++ r) by (asc; reflexivity).
      replace (pos + 1 + N.of_nat (length k) + lenN u + 1)%N with (pos + lenN (k ++ x22 :: u ++ [x3a]))%N in Ev by len. revert Ev. apply local_app; [| |lia|repeat (rewrite app_length; cbn [length]); lia].
      * intros x F e _ L E. asc. cbn [objectKey]. rewrite K1, K2, K3. rewrite skipSpace_app by (auto; simpl; not_ws). change (beqb x3a delimNameSeparator) with true. cbv iota.
        replace (pos + 1 + N.of_nat (length k) + lenN u + 1)%N with (pos + lenN (k ++ x22 :: u ++ [x3a]))%N by len. rewrite E. reflexivity.
      * intros z (t & s1 & w0 & v & E & Hs & Hv). exists (t ++ [x7d]), [(k, v)], (k ++ x22 :: u ++ x3a :: s1 ++ w0 ++ []). asc. rewrite (app_assoc z), E, app_nil_r. split; [asc; reflexivity|]. intros s0 Hs0. rewrite <- (app_nil_r w0). constructor; auto.
Qed.

Lemma C79_lem W r s W' n tail p ty g w : Document_Parse W r s = Ok (W', (n, tail, Some (ParseError p ty g w))) ->
  exists before after, s = before ++ tok g ++ after /\ tok g <> [] /\ p = lenN before /\ goes_with ty w /\
    (forall x, Document_Parse W r (before ++ tok g ++ x) = Ok (W', (n, tail, Some (ParseError p ty g w)))) /\
    (exists x, would_do w x) /\ (forall x, would_do w x -> exists t W2 n2, Document_Parse W r (before ++ x ++ t) = Ok (W2, (n2, [], None))).
Proof.
  intro H. apply Parse_fail_inv in H as (d & Ed & -> & -> & _ & H2 & H3). rewrite (H2 _ _ _ _ eq_refl).
  apply (proj1 (parse_local _)) in H3 as (u & r' & -> & Ht & -> & Hg & Hx & Hw & He). exists u, r'. split; [reflexivity|]. split; [exact Ht|]. split; [lia|]. split; [exact Hg|]. split; [|split; [exact Hx|]].
  - intro x. rewrite (Parse_fail_intro W r d _ (ParseError (0 + lenN u) ty g w) Ed); [reflexivity|]. apply He. unfold parseFuel. lia.
  - intros x D. apply Hw in D as (t & s1 & w0 & v & E & K1 & K2). exists t.
    assert (exists W2 n2, Document_Parse W r (u ++ x ++ t) = Ok (W2, (n2, [], None)) /\ tree_of W2 n2 v) as (W2 & n2 & H & _).
    { apply Parse_tree_iff. split; [eapply nth_error_lt; eauto|]. exists s1, w0. rewrite app_nil_r, app_assoc, E. repeat split; auto. }
    eauto.
Qed.
Lemma C79_refuted_lem : exists s p ty g w before after t v, (forall W r, r < length W ->
    (exists tail, Document_Parse W r s = Ok (W, (mkN 0 0 None, tail, Some (ParseError p ty g w)))) /\
    (exists W2 n2, Document_Parse W r (before ++ t) = Ok (W2, (n2, [], None)) /\ tree_of W2 n2 v)) /\
  s = before ++ after /\ (p + 1 < lenN before)%N.
Proof.
  exists (str "[1, nulx]"), 4%N, TypeNull, (GotStr (str "nulx")), (WantStr (str "null")), (str "[1, nul"), (str "x]"), (str "l]"), (JArr [JNum (str "1"); JNull]). split; [|split; [reflexivity|reflexivity]].
  intros W r L. destruct (nth_error W r) as [d|] eqn:Ed; [|apply nth_error_None in Ed; lia]. split.
  - exists []. rewrite (Parse_fail_intro W r d _ (ParseError 4 TypeNull (GotStr (str "nulx")) (WantStr (str "null"))) Ed); [reflexivity|]. generalize (dnodes d). intro ns. cbv. reflexivity.
  - apply Parse_tree_iff. split; [exact L|]. exists [], (str "[1, null]"). split; [reflexivity|]. split; [constructor|]. split; [|discriminate].
    change (str "[1, null]") with (x5b :: ([] ++ str "1" ++ [] ++ x2c :: (str " " ++ str "null" ++ [])) ++ [x5d]). constructor. constructor; [constructor| |constructor|].
    + constructor. exists x31, []. split; [reflexivity|]. split; [right; vm_compute; split; discriminate|constructor].
    + constructor; [|constructor|constructor]. constructor; [left; reflexivity|constructor].
Qed.
Definition W79 : world := [mkDoc [] 0].
Lemma ex79_lem : Document_Parse W79 0 (str "{""a"": [1 2]}") = Ok (W79, (mkN 0 0 None, [], Some (ParseError 9 TypeArray (GotByte x32) (WantRunes [x2c; x5d])))) /\
  str "{""a"": [1 2]}" = str "{""a"": [1 " ++ tok (GotByte x32) ++ str "]}" /\ would_do (WantRunes [x2c; x5d]) [x5d] /\
  exists W2 n2, Document_Parse W79 0 (str "{""a"": [1 " ++ [x5d] ++ str "}") = Ok (W2, (n2, [], None)).
Proof. split; [vm_compute; reflexivity|]. split; [reflexivity|]. split; [constructor; right; left; reflexivity|]. eexists. eexists. vm_compute. reflexivity. Qed.
Lemma rbracket_no_value v y : ~ lenient_value v (x5d :: y).
Proof. intro H. apply lenient_value_start in H as (c & r & E & S). injection E as <- <-. discriminate S. Qed.
Lemma C79_want_refuted_lem : exists s p ty g w before after c t, (forall W r, r < length W ->
    (exists tail, Document_Parse W r s = Ok (W, (mkN 0 0 None, tail, Some (ParseError p ty g w)))) /\
    (exists W2 n2, Document_Parse W r (before ++ c :: t) = Ok (W2, (n2, [], None)) /\ tree_of W2 n2 (JArr []))) /\
  s = before ++ tok g ++ after /\ p = lenN before /\ (forall y, ~ would_do w (c :: y)) /\ ~ ws_byte c.
Proof.
  exists (str "[x]"), 1%N, TypeAnyValue, (GotByte x78), (WantStr (str "any value")), [x5b], [x5d], x5d, []. split; [|split; [reflexivity|split; [reflexivity|split; [|not_ws]]]].
  - intros W r L. destruct (nth_error W r) as [d|] eqn:Ed; [|apply nth_error_None in Ed; lia]. split.
    + exists []. rewrite (Parse_fail_intro W r d _ (ParseError 1 TypeAnyValue (GotByte x78) (WantStr (str "any value"))) Ed); [reflexivity|]. generalize (dnodes d). intro ns. cbv. reflexivity.
    + apply Parse_tree_iff. split; [exact L|]. exists [], [x5b; x5d]. split; [reflexivity|]. split; [constructor|]. split; [|discriminate]. change [x5b; x5d] with (x5b :: [] ++ [x5d]). constructor. constructor.
  - intros y D. inversion D as [v x H|x H| |]; subst; apply (rbracket_no_value _ _ H).
Qed.

(* ---- where the text ends too early ---- *)
Definition early_at (f : nat) : Prop :=
  (forall ns s pos ty, parseValue f ns s pos = PErr (UnexpectedEOF ty) -> unfinished ty s) /\
  (forall ns s pos ty, parseArray f ns s pos = PErr (UnexpectedEOF ty) -> forall u, ws u -> unfinished ty (u ++ x5b :: s)) /\
  (forall ns id acc s pos ty, arrayValue f ns id acc s pos = PErr (UnexpectedEOF ty) -> in_elements ty s) /\
  (forall ns s pos ty, parseObject f ns s pos = PErr (UnexpectedEOF ty) -> forall u, ws u -> unfinished ty (u ++ x7b :: s)) /\
  (forall ns id acc s pos ty, objectKey f ns id acc s pos = PErr (UnexpectedEOF ty) -> in_members ty s).
Lemma ie_ws u ty s : ws u -> in_elements ty s -> in_elements ty (u ++ s).
Proof.
  intros Hu H. assert (WA : forall a, ws a -> ws (u ++ a)) by (intros; apply Forall_app; auto).
  destruct H as [ty s H|s1 v w s2 H1 Hv H2|s1 v w s2 ty s H1 Hv H2 He]; [|rewrite app_assoc; eapply ie_after; eauto|rewrite app_assoc; eapply ie_more; eauto].
  apply ie_value. destruct H; rewrite ?app_assoc; constructor; auto.
Qed.
Lemma parse_early : forall f, early_at f.
Proof.
  induction f as [|f (IHv & IHa & IHe & IHo & IHm)].
  { repeat split; simpl; intros; discriminate. }
  repeat split.
  - intros ns s pos ty H.
    destruct (skipSpace s pos) as [s1 pos1] eqn:Esk.
    pose proof Esk as Esk'. apply skipSpace_spec in Esk' as (u & -> & Hu & -> & Hn).
    destruct s1 as [|c r]. { erewrite pv_eof in H by eauto. injection H as <-. rewrite app_nil_r. apply uf_none. exact Hu. }
    destruct (start_byte c) eqn:Ec.
    2:{ erewrite pv_bad in H by eauto; discriminate. }
    apply start_cases in Ec as [->|[->|[->|[->|[->|[->|Hd]]]]]].
    + erewrite pv_str in H by eauto. unfold pdone in H. destruct (readString r) eqn:Er; [discriminate|]. injection H as <-. constructor; [exact Hu|].
      intros a b -> Hs. assert (readString (a ++ x22 :: b) = Some (length a)) by (apply readString_spec; exists a, b; auto). congruence.
    + erewrite pv_arr in H by eauto. eapply IHa; eauto.
    + erewrite pv_obj in H by eauto. eapply IHo; eauto.
    + erewrite pv_true in H by eauto. apply readLiteral_eof in H as [-> L]. constructor; [exact Hu|]. cbn [length] in L. change (length strTrue) with 4 in L. lia.
    + erewrite pv_false in H by eauto. apply readLiteral_eof in H as [-> L]. constructor; [exact Hu|]. cbn [length] in L. change (length strFalse) with 5 in L. lia.
    + erewrite pv_null in H by eauto. apply readLiteral_eof in H as [-> L]. constructor; [exact Hu|]. cbn [length] in L. change (length strNull) with 4 in L. lia.
    + erewrite pv_num in H by eauto. discriminate.
  - intros ns s pos ty H u0 Hu0. cbn [parseArray] in H.
    destruct (skipSpace s pos) as [s1 pos1] eqn:Esk.
    apply skipSpace_spec in Esk as (u & -> & Hu & -> & Hn).
    destruct s1 as [|c r]. { injection H as <-. rewrite app_nil_r. apply uf_bracket; auto. }
    destruct (beqb c delimEndArray); [discriminate|]. apply IHe in H. apply uf_array; [exact Hu0| |apply ie_ws; auto].
    intro N. apply Forall_app in N as [_ N]. inversion N; subst. auto.
  - intros ns id acc s pos ty H. cbn [arrayValue] in H.
    destruct (parseValue f ns s pos) as [ns1 p1 t1|e|] eqn:Ev; try discriminate.
    + apply parse_sound in Ev as (s1 & w & v & -> & Hs1 & Hv & Hst & -> & ->).
      destruct (skipSpace t1 (pos + lenN s1 + lenN w)) as [s2 pos2] eqn:Esk.
      apply skipSpace_spec in Esk as (u & -> & Hu & -> & Hn).
      destruct s2 as [|c r]. { injection H as <-. rewrite app_nil_r. eapply ie_after; eauto. }
      unfold delimValueSeparator in H. destruct (beqb_spec c x2c) as [->|Hc].
      2:{ destruct (beqb c delimEndArray); discriminate. }
      apply IHe in H. eapply ie_more; eauto.
    + injection H as ->. apply ie_value. eauto.
  - intros ns s pos ty H u0 Hu0. cbn [parseObject] in H.
    destruct (skipSpace s pos) as [s1 pos1] eqn:Esk.
    apply skipSpace_spec in Esk as (u & -> & Hu & -> & Hn).
    destruct s1 as [|c r]. { injection H as <-. rewrite app_nil_r. apply uf_brace; auto. }
    destruct (beqb c delimEndObject); [discriminate|].
    unfold delimString in H. destruct (beqb_spec c x22) as [->|]; [|discriminate]. apply uf_object; eauto.
  - intros ns id acc s pos ty H. cbn [objectKey] in H.
    destruct (scanQuote s 0) as [i|] eqn:Eq.
    2:{ injection H as <-. apply im_key. intros a b -> Hs. assert (scanQuote (a ++ x22 :: b) 0 = Some (length a)) by (apply scanQuote_spec; exists a, b; auto). congruence. }
    apply scanQuote_spec in Eq as (k & b & -> & Hk & <-).
    rewrite (app_cons_assoc k x22 b), skipn_app_exact in H by (rewrite app_length; simpl; lia).
    destruct (skipSpace b (pos + 1 + N.of_nat (length k))) as [s2 pos2] eqn:Esk.
    apply skipSpace_spec in Esk as (u & -> & Hu & -> & Hn).
    destruct s2 as [|c r]. { injection H as <-. rewrite app_nil_r. apply im_colon; auto. }
    unfold delimNameSeparator in H. destruct (beqb_spec c x3a) as [->|]; [|discriminate].
    destruct (parseValue f ns r _) as [ns1 p1 t1|e|] eqn:Ev; try discriminate.
    + apply parse_sound in Ev as (s1 & w & v & -> & Hs1 & Hv & Hst & -> & ->).
      destruct (skipSpace t1 _) as [s3 pos3] eqn:Esk in H.
      apply skipSpace_spec in Esk as (u' & -> & Hu' & -> & Hn').
      destruct s3 as [|c3 r3]. { injection H as <-. rewrite app_nil_r. eapply im_after; eauto. }
      unfold delimValueSeparator in H. destruct (beqb_spec c3 x2c) as [->|].
      * destruct (skipSpace r3 _) as [s4 pos4] eqn:Esk in H.
        apply skipSpace_spec in Esk as (u2 & -> & Hu2 & -> & Hn2).
        destruct s4 as [|c4 r4]. { injection H as <-. rewrite app_nil_r. eapply im_comma; eauto. }
        unfold delimString in H. destruct (beqb_spec c4 x22) as [->|]; [|discriminate].
        apply IHm in H. eapply im_more; eauto.
      * destruct (beqb c3 delimEndObject); discriminate.
    + injection H as ->. apply im_value; eauto.
Qed.
Lemma C79_eof_lem W r s W' n tail ty : Document_Parse W r s = Ok (W', (n, tail, Some (UnexpectedEOF ty))) -> unfinished ty s.
Proof. intro H. apply Parse_fail_inv in H as (d & _ & _ & _ & _ & _ & H3). exact (proj1 (parse_early _) _ _ _ _ H3). Qed.
Lemma ex79_eof_lem : Document_Parse W79 0 (str "{""a"": [1, ""x") = Ok (W79, (mkN 0 0 None, str "{""a"": [1, ""x", Some (UnexpectedEOF TypeString))) /\
  Document_Parse W79 0 (str "{""a"": [1 ") = Ok (W79, (mkN 0 0 None, str "{""a"": [1 ", Some (UnexpectedEOF TypeArray))) /\
  Document_Parse W79 0 (str "[{""a"": [1] ") = Ok (W79, (mkN 0 0 None, str "[{""a"": [1] ", Some (UnexpectedEOF TypeObject))).
Proof. vm_compute. auto. Qed.

(* ---- and every such text gives that error ---- *)
Scheme uf_ind2 := Minimality for unfinished Sort Prop with ie_ind2 := Minimality for in_elements Sort Prop with im_ind2 := Minimality for in_members Sort Prop.
Combined Scheme uf_mind from uf_ind2, ie_ind2, im_ind2.
Lemma skipSpace_skip u s pos : ws u -> skipSpace (u ++ s) pos = skipSpace s (pos + lenN u).
Proof.
  intro Hu. destruct (skipSpace s (pos + lenN u)) as [s1 p1] eqn:E. apply skipSpace_spec in E as (w & -> & Hw & -> & Hn).
  rewrite app_assoc. rewrite skipSpace_app; [|apply Forall_app; auto|exact Hn]. f_equal. len.
Qed.
Lemma parseValue_skip f ns u s pos : ws u -> parseValue f ns (u ++ s) pos = parseValue f ns s (pos + lenN u).
Proof. intro Hu. destruct f; [reflexivity|]. cbn [parseValue]. rewrite skipSpace_skip by exact Hu. reflexivity. Qed.
Lemma arrayValue_skip f ns id acc u s pos : ws u -> arrayValue f ns id acc (u ++ s) pos = arrayValue f ns id acc s (pos + lenN u).
Proof. intro Hu. destruct f; [reflexivity|]. cbn [arrayValue]. rewrite parseValue_skip by exact Hu. reflexivity. Qed.
Lemma skipSpace_all u pos : ws u -> skipSpace u pos = ([], (pos + lenN u)%N).
Proof. intro Hu. rewrite <- (app_nil_r u) at 1. apply skipSpace_app; simpl; auto. Qed.
Lemma ws_stop u : ws u -> num_stop u.
Proof. intro H. destruct u; simpl; auto. inversion H; subst. left; auto. Qed.
Lemma no_readString s : no_end lenient_string s -> readString s = None.
Proof. intro H. destruct (readString s) eqn:E; [|reflexivity]. apply readString_spec in E as (a & b & -> & Ha & _). destruct (H a b eq_refl Ha). Qed.
Lemma no_scanQuote s : no_end esc_content s -> scanQuote s 0 = None.
Proof. intro H. destruct (scanQuote s 0) eqn:E; [|reflexivity]. apply scanQuote_spec in E as (a & b & -> & Ha & _). destruct (H a b eq_refl Ha). Qed.
Lemma short_literal ns info typ lit s pos : length s < length lit -> readLiteral ns info typ lit s pos = PErr (UnexpectedEOF typ).
Proof. intro H. unfold readLiteral. destruct (Nat.leb_spec (length lit) (length s)); [lia|reflexivity]. Qed.
Lemma scanQuote_key k b : esc_content k -> scanQuote (k ++ x22 :: b) 0 = Some (length k).
Proof. intro H. apply scanQuote_spec. exists k, b. auto. Qed.
Lemma skip_key (k b : bytes) : skipn (S (length k)) (k ++ x22 :: b) = b.
Proof. rewrite (app_cons_assoc k x22 b), skipn_app_exact by (rewrite app_length; simpl; lia). reflexivity. Qed.
Ltac okey Hk := cbn [objectKey]; rewrite (scanQuote_key _ _ Hk), skip_key.
Lemma early_conv :
  (forall ty s, unfinished ty s -> forall f ns pos, 3 * length s + 1 <= f -> parseValue f ns s pos = PErr (UnexpectedEOF ty)) /\
  (forall ty s, in_elements ty s -> forall f ns id acc pos, 3 * length s + 2 <= f -> arrayValue f ns id acc s pos = PErr (UnexpectedEOF ty)) /\
  (forall ty s, in_members ty s -> forall f ns id acc pos, 3 * length s + 2 <= f -> objectKey f ns id acc s pos = PErr (UnexpectedEOF ty)).
Proof.
  pose proof (proj1 parse_complete) as PC. unfold complete_value in PC.
  assert (SK : forall u c r pos, ws u -> ~ ws_byte c -> skipSpace (u ++ c :: r) pos = (c :: r, (pos + lenN u)%N)) by (intros; apply skipSpace_app; auto).
  assert (NC : forall u s, ws u -> num_stop (u ++ x2c :: s)) by (intros; apply num_stop_app; auto; right; left; reflexivity).
  apply uf_mind.
  - intros u Hu f ns pos Hf. destruct f as [|f]; [lia|]. eapply pv_eof. apply skipSpace_all. exact Hu.
  - intros u s Hu Hs f ns pos Hf. destruct f as [|f]; [lia|]. erewrite pv_str by (apply SK; [exact Hu|not_ws]). rewrite no_readString by exact Hs. reflexivity.
  - intros u s Hu Hs f ns pos Hf. destruct f as [|f]; [lia|]. erewrite pv_true by (apply SK; [exact Hu|not_ws]). apply short_literal. cbn [length]. change (length strTrue) with 4. lia.
  - intros u s Hu Hs f ns pos Hf. destruct f as [|f]; [lia|]. erewrite pv_false by (apply SK; [exact Hu|not_ws]). apply short_literal. cbn [length]. change (length strFalse) with 5. lia.
  - intros u s Hu Hs f ns pos Hf. destruct f as [|f]; [lia|]. erewrite pv_null by (apply SK; [exact Hu|not_ws]). apply short_literal. cbn [length]. change (length strNull) with 4. lia.
  - intros u s Hu Hs f ns pos Hf. rewrite app_length in Hf. cbn [length] in Hf. destruct f as [|[|f]]; [lia|lia|]. erewrite pv_arr by (apply SK; [exact Hu|not_ws]).
    cbn [parseArray]. rewrite skipSpace_all by exact Hs. reflexivity.
  - intros u ty s Hu Hs _ IH f ns pos Hf. rewrite app_length in Hf. cbn [length] in Hf. destruct f as [|[|f]]; [lia|lia|]. erewrite pv_arr by (apply SK; [exact Hu|not_ws]).
    cbn [parseArray]. destruct (skipSpace s (pos + lenN u + 1)) as [s1 p1] eqn:E. apply skipSpace_spec in E as (w & -> & Hw & -> & Hn).
    destruct s1 as [|c r]. { destruct Hs. rewrite app_nil_r. exact Hw. }
    assert (A : forall g ns id acc, 3 * length (w ++ c :: r) + 2 <= g -> arrayValue g ns id acc (c :: r) (pos + lenN u + 1 + lenN w) = PErr (UnexpectedEOF ty)).
    { intros g ns' id acc Hg. rewrite <- arrayValue_skip by exact Hw. apply IH. exact Hg. }
    unfold delimEndArray. destruct (beqb_spec c x5d) as [->|_]; [|apply A; lia].
    exfalso. specialize (A (S (S (3 * length (w ++ x5d :: r)))) [] 0 []). cbn [arrayValue] in A.
    erewrite pv_bad in A by (reflexivity || (apply (SK [] x5d r); [constructor|not_ws])). specialize (A ltac:(lia)). discriminate A.
  - intros u s Hu Hs f ns pos Hf. rewrite app_length in Hf. cbn [length] in Hf. destruct f as [|[|f]]; [lia|lia|]. erewrite pv_obj by (apply SK; [exact Hu|not_ws]).
    cbn [parseObject]. rewrite skipSpace_all by exact Hs. reflexivity.
  - intros u s1 ty s Hu Hs1 _ IH f ns pos Hf. rewrite app_length in Hf. cbn [length] in Hf. rewrite app_length in Hf. cbn [length] in Hf.
    destruct f as [|[|f]]; [lia|lia|]. erewrite pv_obj by (apply SK; [exact Hu|not_ws]).
    cbn [parseObject]. rewrite SK by (exact Hs1 || not_ws). apply IH. lia.
  - intros ty s _ IH f ns id acc pos Hf. destruct f as [|f]; [lia|]. cbn [arrayValue]. rewrite IH by lia. reflexivity.
  - intros s1 v w s2 H1 Hv H2 f ns id acc pos Hf. rewrite !app_length in Hf. destruct f as [|f]; [lia|]. cbn [arrayValue].
    rewrite (PC v w Hv) by (lia || auto using ws_stop). rewrite skipSpace_all by exact H2. reflexivity.
  - intros s1 v w s2 ty s H1 Hv H2 _ IH f ns id acc pos Hf. rewrite !app_length in Hf. cbn [length] in Hf. destruct f as [|f]; [lia|]. cbn [arrayValue].
    rewrite (PC v w Hv) by (lia || auto). rewrite SK by (exact H2 || not_ws). apply IH. lia.
  - intros s Hs f ns id acc pos Hf. destruct f as [|f]; [lia|]. cbn [objectKey]. rewrite no_scanQuote by exact Hs. reflexivity.
  - intros k u Hk Hu f ns id acc pos Hf. destruct f as [|f]; [lia|]. okey Hk. rewrite skipSpace_all by exact Hu. reflexivity.
  - intros k u ty s Hk Hu _ IH f ns id acc pos Hf. rewrite !app_length in Hf. cbn [length] in Hf. rewrite !app_length in Hf. cbn [length] in Hf.
    destruct f as [|f]; [lia|]. okey Hk. rewrite SK by (exact Hu || not_ws). change (beqb x3a delimNameSeparator) with true. cbv iota. rewrite IH by lia. reflexivity.
  - intros k u s1 v w s2 Hk Hu H1 Hv H2 f ns id acc pos Hf. do 4 (rewrite ?app_length in Hf; cbn [length] in Hf).
    destruct f as [|f]; [lia|]. okey Hk. rewrite SK by (exact Hu || not_ws). change (beqb x3a delimNameSeparator) with true. cbv iota.
    rewrite (PC v w Hv) by (lia || auto using ws_stop). rewrite skipSpace_all by exact H2. reflexivity.
  - intros k u s1 v w s2 s3 Hk Hu H1 Hv H2 H3 f ns id acc pos Hf. do 4 (rewrite ?app_length in Hf; cbn [length] in Hf).
    destruct f as [|f]; [lia|]. okey Hk. rewrite SK by (exact Hu || not_ws). change (beqb x3a delimNameSeparator) with true. cbv iota.
    rewrite (PC v w Hv) by (lia || auto). rewrite SK by (exact H2 || not_ws). change (beqb x2c delimValueSeparator) with true. cbv iota. rewrite skipSpace_all by exact H3. reflexivity.
  - intros k u s1 v w s2 s3 ty s Hk Hu H1 Hv H2 H3 _ IH f ns id acc pos Hf. do 5 (rewrite ?app_length in Hf; cbn [length] in Hf).
    destruct f as [|f]; [lia|]. okey Hk. rewrite SK by (exact Hu || not_ws). change (beqb x3a delimNameSeparator) with true. cbv iota.
    rewrite (PC v w Hv) by (lia || auto). rewrite SK by (exact H2 || not_ws). change (beqb x2c delimValueSeparator) with true. cbv iota. rewrite SK by (exact H3 || not_ws).
    change (beqb x22 delimString) with true. cbv iota. apply IH. lia.
Qed.
Lemma C79_eof_iff_lem W r s ty : r < length W ->
  unfinished ty s <-> Document_Parse W r s = Ok (W, (mkN 0 0 None, s, Some (UnexpectedEOF ty))).
Proof.
  intro Hr. split; [|apply C79_eof_lem]. intro H. destruct (nth_error W r) as [d|] eqn:Ed; [|apply nth_error_None in Ed; lia].
  rewrite (Parse_fail_intro W r d s (UnexpectedEOF ty) Ed); [reflexivity|]. apply early_conv; [exact H|unfold parseFuel; lia].
Qed.
