(* Proofs about strjson. *)
From Verif Require Import Bytes Tables JsonSpec Parser Doc Utf8 StrSpec Utf8Proofs Strjson.

(* ---- escaping ---- *)

Definition esc1 (HTML : bool) (c : byte) : bytes :=
  let e := toJSON c in
  if beqb e x80 then [c]
  else if beqb e x01 && negb HTML then [c]
  else let e := if beqb e x01 then x00 else e in
       if beqb e x5c then [x5c; c] else if beqb e x00 then escapeByte c else [x5c; e].

Lemma esc1_ok h c : (bN c < 128)%N -> toJSON c <> xff /\ esc1 h c = escape_of h (bN c).
Proof.
  intro L.
  pose proof (forall_bytes (fun c => implb (bN c <? 128)%N (negb (beqb (toJSON c) xff) && bseqb (esc1 h c) (escape_of h (bN c)))%bool)) as H.
  assert (E : forallb (fun c => implb (bN c <? 128)%N (negb (beqb (toJSON c) xff) && bseqb (esc1 h c) (escape_of h (bN c)))%bool) all_bytes = true)
    by (destruct h; vm_compute; reflexivity).
  specialize (H E c). apply N.ltb_lt in L. cbn beta in H. rewrite L in H. cbn [implb] in H.
  apply andb_true_iff in H as [H1 H2]. apply bseqb_true in H2. split; auto. intro Q. rewrite Q in H1. discriminate.
Qed.
Lemma toJSON_high c : (128 <= bN c)%N -> toJSON c = xff.
Proof.
  intro L. assert (E : forallb (fun c => (bN c <? 128)%N || beqb (toJSON c) xff) all_bytes = true) by (vm_compute; reflexivity).
  pose proof (forall_bytes _ E c) as H. cbn beta in H. rewrite (proj2 (N.ltb_ge (bN c) 128)) in H by lia. apply beqb_true. exact H.
Qed.

Lemma escapeUTF8_ok r : (r < 65536)%N -> escapeUTF8 r = u_escape r.
Proof.
  intro L. unfold escapeUTF8, u_escape. rewrite !shr, !land15, !bN_Nb.
  assert (T : forall n, (n < 16)%N -> toHex (Nb n) = hexchar n).
  { intros n Hn. assert (E : forallb (fun n => beqb (toHex (Nb (N.of_nat n))) (hexchar (N.of_nat n))) (seq 0 16) = true) by (vm_compute; reflexivity).
    rewrite forallb_forall in E. specialize (E (N.to_nat n)). rewrite N2Nat.id in E. apply beqb_true. apply E. apply in_seq. lia. }
  change (2 ^ 12)%N with 4096%N. change (2 ^ 8)%N with 256%N. change (2 ^ 4)%N with 16%N.
  assert (Q : (((r / 256) mod 256) mod 16 = (r / 256) mod 16 /\ (r mod 256) / 16 = (r / 16) mod 16 /\ (r mod 256) mod 16 = r mod 16 /\ r / 4096 < 16)%N) by dm.
  destruct Q as (Q1 & Q2 & Q3 & Q4). rewrite Q1, Q2, Q3. rewrite !T by (auto; apply N.mod_lt; lia). reflexivity.
Qed.

Lemma escape_high h r : (128 <= r)%N ->
  escape_of h r = if (r =? RuneError)%N || (r =? uLineSeparator)%N || (r =? uParagraphSeparator)%N then u_escape r else utf8 r.
Proof.
  intro L. unfold escape_of, html_char. rewrite !(proj2 (N.eqb_neq r _)) by lia.
  rewrite (proj2 (N.ltb_ge r 32)) by lia. cbn [orb]. rewrite andb_false_r.
  change replacement with RuneError. reflexivity.
Qed.

Definition escapes (h : bool) (rs : list N) : bytes := concat (map (escape_of h) rs).

Lemma skipn_exact {A} (a b : list A) : skipn (length a) (a ++ b) = b.
Proof. rewrite skipn_app, skipn_all, Nat.sub_diag. reflexivity. Qed.
Lemma firstn_exact {A} (a b : list A) : firstn (length a) (a ++ b) = a.
Proof. rewrite firstn_app, firstn_all, Nat.sub_diag. cbn. apply app_nil_r. Qed.

Lemma head_high r : scalar r -> (128 <= r)%N -> exists c t, utf8 r = c :: t /\ (128 <= bN c)%N.
Proof.
  intros S L. destruct (utf8_head r S) as (c & t & E & A1 & A2 & A3 & A4). exists c, t. split; auto.
  assert (128 <= r < 2048 \/ 2048 <= r < 65536 \/ 65536 <= r)%N as [H|[H|H]] by lia.
  - destruct (A2 H). lia.
  - destruct (A3 H). lia.
  - destruct (A4 H). lia.
Qed.

Lemma escapedLoop_ok h s rs : runes s rs -> forall f b pend, length s < f ->
  escapedLoop f h b pend s = Some (b ++ pend ++ escapes h rs).
Proof.
  induction 1 as [|r s rs S R IH|c s rs B R IH]; intros f b pend Hf; (destruct f as [|f]; [lia|]).
  - cbn. rewrite app_nil_r. reflexivity.
  - unfold escapes. cbn [map concat]. fold (escapes h rs). rewrite app_length in Hf.
    destruct (N.lt_ge_cases r 128) as [L|L].
    + assert (U : utf8 r = [Nb r]) by (unfold utf8; rewrite (proj2 (N.ltb_lt r 128)) by auto; reflexivity). rewrite U in *. cbn [app length] in *.
      set (c := Nb r) in *. assert (Ec : bN c = r) by (apply bNb; lia). rewrite <- Ec. rewrite <- Ec in L.
      destruct (esc1_ok h c L) as [F E]. rewrite <- E. clear E. cbn [escapedLoop]. unfold esc1. apply beqb_false in F.
      destruct (beqb (toJSON c) x80); [rewrite IH by lia; rewrite <- !app_assoc; reflexivity|]. rewrite F.
      destruct (beqb (toJSON c) x01 && negb h); rewrite IH by lia; rewrite <- !app_assoc; reflexivity.
    + destruct (head_high r S L) as (c & t & U & Hc). rewrite (escape_high h r L).
      pose proof (decode_enc r s S) as D. pose proof (utf8_nonempty r) as NE.
      assert (1 <= length (utf8 r)) by (rewrite U; cbn; lia).
      assert (E : utf8 r ++ s = c :: t ++ s) by (rewrite U; reflexivity). rewrite E. cbn [escapedLoop].
      rewrite (toJSON_high c Hc). change (beqb xff x80) with false. change (beqb xff xff) with true. cbn match. rewrite <- E, D.
      rewrite skipn_exact, firstn_exact.
      destruct ((r =? RuneError)%N || (r =? uLineSeparator)%N || (r =? uParagraphSeparator)%N) eqn:Q.
      * assert (r < 65536)%N. { unfold RuneError, uLineSeparator, uParagraphSeparator in Q. rewrite !orb_true_iff, !N.eqb_eq in Q. lia. }
        rewrite (proj2 (Nat.eqb_neq (length (utf8 r)) 0)) by lia.
        rewrite IH by lia. rewrite escapeUTF8_ok by auto. rewrite <- !app_assoc. reflexivity.
      * rewrite IH by lia. rewrite <- !app_assoc. reflexivity.
  - cbn [length] in Hf. destruct (decode_inv c s) as [(r & t & S & E & _)|(D & L)]; [exfalso; eapply B; eauto|].
    cbn [escapedLoop]. rewrite (toJSON_high c L). change (beqb xff x80) with false. change (beqb xff xff) with true. cbn match. rewrite D.
    cbn [skipn Nat.eqb]. rewrite IH by lia. unfold escapes. cbn [map concat]. replace (escape_of h replacement) with (escapeUTF8 RuneError) by (destruct h; reflexivity).
    change ((RuneError =? RuneError)%N || (RuneError =? uLineSeparator)%N || (RuneError =? uParagraphSeparator)%N) with true. cbn match.
    destruct h; rewrite <- !app_assoc; reflexivity.
Qed.

Lemma Escaped_ok s rs h q : runes s rs -> Escaped s h q = Ok (if q then x22 :: escapes h rs ++ [x22] else escapes h rs).
Proof.
  intro R. unfold Escaped. destruct s as [|c s].
  - apply (runes_det _ _ _ ru_nil) in R. subst. destruct q; reflexivity.
  - rewrite (escapedLoop_ok h _ _ R) by lia. destruct q; reflexivity.
Qed.

Lemma appendEscapedLoop_same f h b pend s : appendEscapedLoop f h b pend s = escapedLoop f h b pend s.
Proof. reflexivity. Qed.
Lemma AppendEscaped_ok dst s rs h : runes s rs -> AppendEscaped dst s h = Ok (dst ++ escapes h rs).
Proof.
  intro R. unfold AppendEscaped. destruct s as [|c s].
  - apply (runes_det _ _ _ ru_nil) in R. subst. cbn. rewrite app_nil_r. reflexivity.
  - rewrite appendEscapedLoop_same, (escapedLoop_ok h _ _ R) by lia. reflexivity.
Qed.

(* ---- one step of unescaping ---- *)

Definition unesc1 (s : bytes) : option (bytes * bytes) :=
  match s with
  | [] => None
  | c :: r =>
      if negb (beqb c delimEscape) then Some ([c], r)
      else match r with
      | [] => Some ([x5c], [])
      | c :: r =>
          match simpleEscape c with
          | Some c => Some ([c], r)
          | None =>
              if beqb c x75 then
                match r with
                | h1 :: h2 :: h3 :: h4 :: r4 =>
                    let r1 := hexRune h1 h2 h3 h4 in
                    if (r1 <? RuneSelf)%N then Some ([Nb r1], r4)
                    else if IsSurrogate r1 then
                      match r4 with
                      | e :: u :: g1 :: g2 :: g3 :: g4 :: r10 =>
                          if beqb e delimEscape && beqb u x75 then
                            Some (EncodeRune (DecodeRune16 r1 (hexRune g1 g2 g3 g4)), r10)
                          else Some (EncodeRune RuneError, r4)
                      | _ => Some (EncodeRune RuneError, r4)
                      end
                    else Some (EncodeRune r1, r4)
                | _ => Some ([x5c; x75], r)
                end
              else Some ([x5c; c], r)
          end
      end
  end.

Inductive unescR : bytes -> bytes -> Prop :=
| ur_nil : unescR [] []
| ur_step s o r o' : unesc1 s = Some (o, r) -> unescR r o' -> unescR s (o ++ o').

Lemma enc_len r : 1 <= length (EncodeRune r) <= 4.
Proof. unfold EncodeRune. destruct (r <=? 127)%N, (r <=? 2047)%N; try (cbn; lia). destruct ((1114111 <? r)%N || between 55296 r 57343), (r <=? 65535)%N; cbn; lia. Qed.

Lemma unesc1_len s o r : unesc1 s = Some (o, r) -> length r < length s /\ length o + length r <= length s.
Proof.
  unfold unesc1. destruct s as [|c s]; [discriminate|]. destruct (negb _); [injection 1 as <- <-; cbn; lia|].
  destruct s as [|c2 s]; [injection 1 as <- <-; cbn; lia|]. destruct (simpleEscape c2); [injection 1 as <- <-; cbn; lia|].
  destruct (beqb c2 x75); [|injection 1 as <- <-; cbn; lia].
  destruct s as [|h1 [|h2 [|h3 [|h4 s]]]]; try (injection 1 as <- <-; cbn; lia).
  cbv zeta. destruct (_ <? _)%N; [injection 1 as <- <-; cbn; lia|].
  assert (X : forall x, Some (EncodeRune x, s) = Some (o, r) -> length r < length (c :: c2 :: h1 :: h2 :: h3 :: h4 :: s) /\ length o + length r <= length (c :: c2 :: h1 :: h2 :: h3 :: h4 :: s)).
  { intros x H. injection H as <- <-. pose proof (enc_len x). cbn [length]. lia. }
  destruct (IsSurrogate _); [|apply X].
  destruct s as [|e [|u [|g1 [|g2 [|g3 [|g4 s]]]]]]; try apply X.
  destruct (_ && _); [|apply X]. injection 1 as <- <-. match goal with |- context [EncodeRune ?x] => pose proof (enc_len x) end. cbn [length]. lia.
Qed.

Lemma unescR_total s : exists o, unescR s o.
Proof.
  remember (length s) as n. revert s Heqn. induction n as [n IH] using (well_founded_induction Wf_nat.lt_wf). intros s ->.
  destruct (unesc1 s) as [[o r]|] eqn:E.
  - destruct (unesc1_len _ _ _ E) as [L _]. destruct (IH _ L r eq_refl) as (o' & H). exists (o ++ o'). econstructor; eauto.
  - exists []. destruct s; [constructor|]. exfalso. revert E. unfold unesc1. repeat (match goal with |- context [match ?x with _ => _ end] => destruct x end; try discriminate).
Qed.
Lemma unescR_det s o o' : unescR s o -> unescR s o' -> o = o'.
Proof.
  intro H. revert o'. induction H as [|s o r o2 E H IH]; intros o' H'.
  - inversion H' as [|? ? ? ? E']; auto. discriminate.
  - inversion H' as [E'|? ? ? ? E' H2]; subst; [discriminate|]. rewrite E in E'. injection E' as <- <-. f_equal. auto.
Qed.
Lemma unescR_len s o : unescR s o -> length o <= length s.
Proof. induction 1 as [|s o r o' E H IH]; auto. apply unesc1_len in E. rewrite app_length. lia. Qed.

Lemma unescapedLoop_ok s o : unescR s o -> forall f b pend, length s < f -> unescapedLoop f b pend s = Some (b ++ pend ++ o).
Proof.
  induction 1 as [|s o r o' E H IH]; intros f b pend Hf; (destruct f as [|f]; [lia|]).
  - cbn. rewrite app_nil_r. reflexivity.
  - destruct (unesc1_len _ _ _ E) as [L _]. assert (Hr : length r < f) by lia. specialize (IH f).
    revert E. unfold unesc1. cbn [unescapedLoop]. destruct s as [|c s]; [discriminate|].
    destruct (negb _); [injection 1 as <- <-; rewrite IH by auto; rewrite <- !app_assoc; reflexivity|].
    destruct s as [|c2 s].
    { injection 1 as <- <-. inversion H as [|? ? ? ? E']; [|discriminate]. rewrite <- !app_assoc. reflexivity. }
    destruct (simpleEscape c2); [injection 1 as <- <-; rewrite IH by auto; rewrite <- !app_assoc; reflexivity|].
    destruct (beqb c2 x75); [|injection 1 as <- <-; rewrite IH by auto; rewrite <- !app_assoc; reflexivity].
    destruct s as [|h1 [|h2 [|h3 [|h4 s]]]]; try (injection 1 as <- <-; rewrite IH by auto; rewrite <- !app_assoc; reflexivity).
    cbv zeta. destruct (_ <? _)%N; [injection 1 as <- <-; rewrite IH by auto; rewrite <- !app_assoc; reflexivity|].
    destruct (IsSurrogate _); [|injection 1 as <- <-; rewrite IH by auto; rewrite <- !app_assoc; reflexivity].
    destruct s as [|e [|u [|g1 [|g2 [|g3 [|g4 s]]]]]]; try (injection 1 as <- <-; rewrite IH by auto; rewrite <- !app_assoc; reflexivity).
    destruct (_ && _); injection 1 as <- <-; rewrite IH by auto; rewrite <- !app_assoc; reflexivity.
Qed.

Lemma unescR_plain a s o : ~ In x5c a -> unescR s o -> unescR (a ++ s) (a ++ o).
Proof.
  intros Ha H. induction a as [|c a IH]; auto. cbn [app]. change (c :: a ++ o) with ([c] ++ (a ++ o)).
  eapply ur_step; [|apply IH; intro; apply Ha; right; auto]. unfold unesc1.
  destruct (beqb c delimEscape) eqn:E; [|reflexivity]. exfalso. apply Ha. left. apply beqb_true in E. auto.
Qed.

Lemma indexByte_none c s : indexByte c s = None -> ~ In c s.
Proof.
  induction s as [|x s IH]; cbn; auto. destruct (beqb x c) eqn:E; [discriminate|]. destruct (indexByte c s); [discriminate|].
  intros _ [->|H]; [rewrite beqb_refl in E; discriminate|]. apply IH; auto.
Qed.
Lemma indexByte_some c s i : indexByte c s = Some i -> ~ In c (firstn i s).
Proof.
  revert i. induction s as [|x s IH]; cbn; [discriminate|]. destruct (beqb x c) eqn:E.
  - injection 1 as <-. auto.
  - destruct (indexByte c s) as [j|]; [|discriminate]. injection 1 as <-. cbn. intros [->|H]; [rewrite beqb_refl in E; discriminate|]. eapply IH; eauto.
Qed.

Lemma Unescaped_ok s o : unescR s o -> Unescaped s = Ok o.
Proof.
  intro H. unfold Unescaped. destruct s as [|c s0]; [inversion H; [reflexivity|discriminate]|]. set (s := c :: s0) in *.
  destruct (indexByte delimEscape s) as [i|] eqn:E.
  - destruct (unescR_total (skipn i s)) as (o' & H'). apply indexByte_some in E.
    pose proof (unescR_plain (firstn i s) _ _ E H') as P. rewrite firstn_skipn in P. rewrite (unescR_det _ _ _ H P).
    rewrite (unescapedLoop_ok _ _ H'); [reflexivity|]. rewrite skipn_length. lia.
  - apply indexByte_none in E. pose proof (unescR_plain s [] [] E ur_nil) as P. rewrite !app_nil_r in P. rewrite (unescR_det _ _ _ H P). reflexivity.
Qed.

(* ---- Unescape into a buffer ---- *)

Lemma writeAt_app b rest x : writeAt (b ++ rest) (length b) x = b ++ x ++ skipn (length x) rest.
Proof.
  unfold writeAt. rewrite firstn_exact. rewrite skipn_app. rewrite skipn_all2 by lia. cbn [app]. do 2 f_equal. f_equal. lia.
Qed.
Lemma writeStringAt_app b rest x : x <> [] -> length x <= length rest ->
  writeStringAt (b ++ rest) x (length b) = (b ++ x ++ skipn (length x) rest, length x).
Proof.
  intros Hx L. unfold writeStringAt. rewrite app_length. destruct x as [|c x]; [congruence|]. cbn [length] in L.
  rewrite (proj2 (Nat.ltb_lt _ _)) by lia. rewrite (proj2 (Nat.leb_le _ _)) by (cbn; lia). cbn [andb]. rewrite writeAt_app. reflexivity.
Qed.
Lemma pend_app b rest x : length x <= length rest ->
  match x with [] => (b ++ rest, 0) | _ => writeStringAt (b ++ rest) x (length b) end = (b ++ x ++ skipn (length x) rest, length x).
Proof. intro L. destruct x as [|c x]; [reflexivity|]. apply writeStringAt_app; [discriminate|auto]. Qed.
Lemma putByte_app b rest c : 1 <= length rest -> putByte (b ++ rest) (length b) c = (b ++ [c] ++ skipn 1 rest, S (length b)).
Proof. intro L. unfold putByte. rewrite app_length. rewrite (proj2 (Nat.ltb_lt _ _)) by lia. rewrite writeAt_app. reflexivity. Qed.
Lemma putRune_app b rest r : length (EncodeRune r) <= length rest ->
  putRune (b ++ rest) (length b) r = Ok (b ++ EncodeRune r ++ skipn (length (EncodeRune r)) rest, length b + length (EncodeRune r)).
Proof.
  intro L. unfold putRune. rewrite app_length. pose proof (enc_len r). rewrite (proj2 (Nat.ltb_lt _ _)) by lia.
  rewrite (proj2 (Nat.leb_le _ _)) by lia. rewrite writeAt_app. reflexivity.
Qed.

Lemma skipn_skipn {A} (l : list A) a b : skipn a (skipn b l) = skipn (b + a) l.
Proof. revert l. induction b as [|b IH]; intro l; [reflexivity|]. destruct l; cbn; [apply skipn_nil|apply IH]. Qed.

Lemma unescapeLoop_ok s o : unescR s o -> forall f b pend rest, length s < f -> length pend + length s <= length rest ->
  unescapeLoop f (b ++ rest) (length b) pend s = Ok (b ++ (pend ++ o) ++ skipn (length (pend ++ o)) rest, length b + length (pend ++ o)).
Proof.
  induction 1 as [|s o r o' E H IH]; intros f b pend rest Hf Hr; (destruct f as [|f]; [lia|]).
  - cbn [unescapeLoop]. rewrite pend_app by lia. rewrite app_nil_r. reflexivity.
  - pose proof (unesc1_len _ _ _ E) as [L1 L2].
    (* what is left to do after writing x = pend ++ o *)
    assert (F : unescapeLoop f ((b ++ pend ++ o) ++ skipn (length pend + length o) rest) (length (b ++ pend ++ o)) [] r =
      Ok (b ++ (pend ++ o ++ o') ++ skipn (length (pend ++ o ++ o')) rest, length b + length (pend ++ o ++ o'))).
    { rewrite IH; [|lia|rewrite skipn_length; cbn [length]; lia]. cbn [app]. rewrite skipn_skipn, !app_length. rewrite <- !app_assoc.
      rewrite (Nat.add_assoc (length pend) (length o) (length o')). f_equal. f_equal. lia. }
    assert (W : b ++ pend ++ o ++ skipn (length o) (skipn (length pend) rest) = (b ++ pend ++ o) ++ skipn (length pend + length o) rest).
    { rewrite skipn_skipn, <- !app_assoc. reflexivity. }
    assert (LP : length (b ++ pend ++ o) = length b + length pend + length o) by (rewrite !app_length; lia).
    assert (B1 : forall c, o = [c] -> (let (dst, j) := putByte (b ++ pend ++ skipn (length pend) rest) (length b + length pend) c in unescapeLoop f dst j [] r)
      = Ok (b ++ (pend ++ o ++ o') ++ skipn (length (pend ++ o ++ o')) rest, length b + length (pend ++ o ++ o'))).
    { intros c ->. cbn [length] in *. rewrite <- app_length, app_assoc, putByte_app by (rewrite skipn_length; lia). rewrite <- F. rewrite <- W, LP, app_length, <- app_assoc.
      f_equal. lia. }
    assert (B2 : forall c c', o = [c; c'] -> (let (dst, j) := putByte (b ++ pend ++ skipn (length pend) rest) (length b + length pend) c in
      let (dst, j) := putByte dst j c' in unescapeLoop f dst j [] r)
      = Ok (b ++ (pend ++ o ++ o') ++ skipn (length (pend ++ o ++ o')) rest, length b + length (pend ++ o ++ o'))).
    { intros c c' ->. cbn [length] in *. rewrite <- app_length, app_assoc, putByte_app by (rewrite skipn_length; lia). rewrite (app_assoc (b ++ pend)).
      replace (S (length (b ++ pend))) with (length ((b ++ pend) ++ [c])) by (rewrite app_length; cbn; lia).
      rewrite putByte_app by (rewrite !skipn_length; lia). rewrite <- F. rewrite <- W, LP, !app_length, <- !app_assoc. rewrite !skipn_skipn. cbn [length app].
      cbn [Nat.add]. f_equal. lia. }
    assert (B3 : forall x, o = EncodeRune x -> (let! (dst, j) := putRune (b ++ pend ++ skipn (length pend) rest) (length b + length pend) x in unescapeLoop f dst j [] r)
      = Ok (b ++ (pend ++ o ++ o') ++ skipn (length (pend ++ o ++ o')) rest, length b + length (pend ++ o ++ o'))).
    { intros x ->. rewrite <- app_length, app_assoc, putRune_app by (rewrite skipn_length; lia). cbn [bind]. rewrite <- F. rewrite <- W, LP, app_length, <- app_assoc. reflexivity. }
    clear F W. revert E. unfold unesc1. cbn [unescapeLoop]. destruct s as [|c s]; [discriminate|].
    assert (PE : match pend with [] => (b ++ rest, 0) | _ => writeStringAt (b ++ rest) pend (length b) end = (b ++ pend ++ skipn (length pend) rest, length pend))
      by (apply pend_app; lia).
    destruct (negb _).
    { injection 1 as <- <-. cbn [length] in *. rewrite IH by (rewrite ?app_length; cbn [length]; lia). rewrite <- !app_assoc. reflexivity. }
    rewrite PE. cbv zeta. destruct s as [|c2 s].
    { injection 1 as <- <-. inversion H as [|? ? ? ? E']; [|discriminate]. subst. cbn [length] in *. specialize (B1 _ eq_refl).
      destruct (putByte _ _ _) as [dst j]. destruct f as [|f]; [lia|]. cbn [unescapeLoop] in B1. rewrite Nat.add_0_r in B1. exact B1. }
    destruct (simpleEscape c2); [injection 1 as <- <-; apply B1; reflexivity|].
    destruct (beqb c2 x75); [|injection 1 as <- <-; apply B2; reflexivity].
    destruct s as [|h1 [|h2 [|h3 [|h4 s]]]]; try (injection 1 as <- <-; apply B2; reflexivity).
    destruct (_ <? _)%N; [injection 1 as <- <-; apply B1; reflexivity|].
    destruct (IsSurrogate _); [|injection 1 as <- <-; apply B3; reflexivity].
    destruct s as [|e [|u [|g1 [|g2 [|g3 [|g4 s]]]]]]; try (injection 1 as <- <-; apply B3; reflexivity).
    destruct (_ && _); injection 1 as <- <-; apply B3; reflexivity.
Qed.

Lemma Unescape_ok dst s o : unescR s o -> length s <= length dst -> Unescape dst s = Ok (o ++ skipn (length o) dst, length o).
Proof.
  intros H L. unfold Unescape. destruct s as [|c s]; [inversion H; [reflexivity|discriminate]|].
  exact (unescapeLoop_ok _ _ H _ [] [] dst (Nat.lt_succ_diag_r _) L).
Qed.
Lemma AppendUnescaped_ok dst spare s o : unescR s o -> AppendUnescaped dst spare s = Ok (Some (dst ++ o)).
Proof.
  intro H. unfold AppendUnescaped. destruct s as [|c s]; [inversion H; [rewrite app_nil_r; reflexivity|discriminate]|].
  set (t := c :: s) in *. pose proof (unescR_len _ _ H) as Lo.
  set (sp := if _ <? _ then _ else _). assert (L : length t <= length sp).
  { unfold sp. destruct (Nat.ltb_spec (length dst + length spare) (length dst + length t)); [rewrite repeat_length; lia|lia]. }
  rewrite (Unescape_ok sp _ _ H L). cbn [bind]. rewrite (proj2 (Nat.leb_le _ _)) by lia. rewrite firstn_exact. reflexivity.
Qed.
