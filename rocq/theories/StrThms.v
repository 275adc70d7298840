(* Escaping and unescaping against StrSpec.v. *)
From Verif Require Import Bytes Tables JsonSpec Parser Doc Utf8 StrSpec Utf8Proofs Strjson StrProofs.

Lemma low_scalar c : (bN c < 128)%N -> utf8 (bN c) = [c].
Proof. intro. unfold utf8. rewrite (proj2 (N.ltb_lt _ 128)) by auto. rewrite Nb_bN. reflexivity. Qed.

(* ---- C26 ---- *)

Lemma unesc1_low h c w : (bN c < 128)%N -> unesc1 (escape_of h (bN c) ++ w) = Some ([c], w).
Proof.
  intro L. destruct c; try (exfalso; vm_compute in L; discriminate L); destruct h; reflexivity.
Qed.

Lemma high_bytes r : (128 <= r)%N -> scalar r -> Forall (fun c => (128 <= bN c)%N) (utf8 r).
Proof.
  intros L S. unfold utf8, scalar in *. rewrite (proj2 (N.ltb_ge r 128)) by auto.
  destruct (N.ltb_spec r 2048); [|destruct (N.ltb_spec r 65536)]; repeat constructor; rewrite bNb; dm.
Qed.

Lemma unesc_char h r w o : scalar r -> unescR w o -> unescR (escape_of h r ++ w) (utf8 r ++ o).
Proof.
  intros S H. destruct (N.lt_ge_cases r 128) as [L|L].
  - assert (E : r = bN (Nb r)) by (rewrite bNb; lia). rewrite E in L |- *. rewrite low_scalar by auto. eapply ur_step; [|exact H]. apply unesc1_low. auto.
  - rewrite escape_high by auto. destruct (_ || _) eqn:Q.
    + eapply ur_step; [|exact H]. rewrite !orb_true_iff, !N.eqb_eq in Q. destruct Q as [[->| ->]| ->]; reflexivity.
    + apply unescR_plain; auto. intro I. pose proof (high_bytes r L S) as F. rewrite Forall_forall in F. specialize (F _ I). vm_compute in F. apply F. reflexivity.
Qed.

Lemma unesc_escapes h rs : Forall scalar rs -> unescR (escapes h rs) (utf8s rs).
Proof. unfold escapes, utf8s. induction 1; cbn [map concat]; [constructor|]. apply unesc_char; auto. Qed.

Lemma C26_lem s rs h : runes s rs -> exists e, Escaped s h false = Ok e /\ Unescaped e = Ok (utf8s rs).
Proof.
  intro R. exists (escapes h rs). split; [apply (Escaped_ok s rs h false R)|]. apply Unescaped_ok, unesc_escapes. eapply runes_scalar; eauto.
Qed.
Lemma C26_valid_lem s h : valid_utf8 s -> exists e, Escaped s h false = Ok e /\ Unescaped e = Ok s.
Proof. intros (rs & F & ->). apply C26_lem. apply runes_valid. auto. Qed.
Lemma runes_exist s : exists rs, runes s rs /\ (forall rs', runes s rs' -> rs' = rs) /\ Forall scalar rs /\ (valid_utf8 s -> s = utf8s rs).
Proof.
  destruct (runes_total s) as (rs & H). exists rs. split; auto. split; [intros; eapply runes_det; eauto|]. split; [eapply runes_scalar; eauto|].
  intros (rs' & F & ->). f_equal. eapply runes_det; [apply runes_valid; auto|auto].
Qed.

(* ---- C27 ---- *)

Lemma rfc_chars_app a b : rfc_chars a -> rfc_chars b -> rfc_chars (a ++ b).
Proof. induction 1; cbn [app]; intro; auto; [apply chars_plain|apply chars_esc|apply chars_u]; auto. Qed.

Lemma hexchar_ok n : (n < 16)%N -> hexdigit (hexchar n).
Proof.
  intro L. unfold hexchar, hexdigit. destruct (N.ltb_spec n 10); rewrite bNb by lia; lia.
Qed.
Lemma u_escape_rfc r : (r < 65536)%N -> rfc_chars (u_escape r).
Proof. intro. unfold u_escape. apply chars_u; [apply hexchar_ok; dm..|constructor]. Qed.
Lemma high_rfc r : (128 <= r)%N -> scalar r -> rfc_chars (utf8 r).
Proof.
  intros L S. pose proof (high_bytes r L S) as F. induction F as [|c w Hc F IH]; [constructor|]. constructor; auto; try lia; intros ->; vm_compute in Hc; apply Hc; reflexivity.
Qed.
(* Checked for each byte: what is written for a character below 128. *)
Definition good_plain (c : byte) : bool := (32 <=? bN c)%N && (bN c <? 127)%N && negb (beqb c x22) && negb (beqb c x5c).
Definition good_esc (c : byte) : bool := existsb (beqb c) [x22; x5c; x2f; x62; x66; x6e; x72; x74].
Definition hexb (c : byte) : bool := ((48 <=? bN c) && (bN c <=? 57) || (65 <=? bN c) && (bN c <=? 70) || (97 <=? bN c) && (bN c <=? 102))%N.
Lemma hexb_ok c : hexb c = true <-> hexdigit c.
Proof. unfold hexb, hexdigit. rewrite !orb_true_iff, !andb_true_iff, !N.leb_le. tauto. Qed.
Definition good_token (w : bytes) : bool :=
  match w with
  | [c] => good_plain c
  | [a; c] => beqb a x5c && good_esc c
  | [a; u; h1; h2; h3; h4] => beqb a x5c && beqb u x75 && hexb h1 && hexb h2 && hexb h3 && hexb h4
  | _ => false
  end.
Lemma good_token_ok w : good_token w = true -> rfc_chars w.
Proof.
  destruct w as [|a [|b [|c [|d [|e [|f [|g w]]]]]]]; cbn [good_token]; try discriminate.
  - unfold good_plain. rewrite !andb_true_iff, !negb_true_iff, N.leb_le, !beqb_false. intros [[[]]]. apply chars_plain; auto; constructor.
  - unfold good_esc. rewrite andb_true_iff, beqb_true. intros [-> H]. apply chars_esc; [|constructor].
    apply existsb_exists in H as (x & I & H). apply beqb_true in H. subst. auto.
  - rewrite !andb_true_iff, !beqb_true, !hexb_ok. intros [[[[[-> ->]]]]]. apply chars_u; auto. constructor.
Qed.
Definition low_ok (h : bool) (c : byte) : bool :=
  implb (bN c <? 128)%N (good_token (escape_of h (bN c)) && forallb (fun x => (bN x <? 127)%N) (escape_of h (bN c)) &&
    (negb h || negb (existsb (fun x => html_char (bN x)) (escape_of h (bN c))))).
Lemma low_checked h c : (bN c < 128)%N -> rfc_chars (escape_of h (bN c)) /\ Forall (fun x => (bN x < 127)%N) (escape_of h (bN c)) /\
  (h = true -> Forall (fun x => html_char (bN x) = false) (escape_of h (bN c))).
Proof.
  intro L. assert (E : forallb (low_ok h) all_bytes = true) by (destruct h; vm_compute; reflexivity).
  pose proof (forall_bytes _ E c) as H. unfold low_ok in H. rewrite (proj2 (N.ltb_lt _ _)) in H by auto. cbn [implb] in H.
  apply andb_true_iff in H as [H H3]. apply andb_true_iff in H as [H1 H2]. split; [apply good_token_ok; auto|]. split.
  - apply Forall_forall. intros x I. rewrite forallb_forall in H2. apply N.ltb_lt. auto.
  - intros ->. cbn [negb orb] in H3. apply negb_true_iff in H3. apply Forall_forall. intros x I. destruct (html_char (bN x)) eqn:Q; auto.
    rewrite <- H3. symmetry. apply existsb_exists. eauto.
Qed.

Lemma ascii_utf8s l : Forall (fun x => (bN x < 127)%N) l -> utf8s (map bN l) = l.
Proof. unfold utf8s. induction 1; cbn [map concat]; auto. rewrite low_scalar by lia. cbn. f_equal. auto. Qed.

Definition safe_rune (r : N) : Prop := scalar r /\ r <> 8232%N /\ r <> 8233%N /\ r <> 127%N.
Lemma u_escape_low r : (r < 65536)%N -> Forall (fun x => (bN x < 127)%N /\ html_char (bN x) = false) (u_escape r).
Proof.
  intro L. unfold u_escape.
  assert (forall n, (n < 16)%N -> (bN (hexchar n) < 127)%N /\ html_char (bN (hexchar n)) = false).
  { intros n Hn. unfold hexchar, html_char. destruct (N.ltb_spec n 10); rewrite bNb by lia; split; try lia; rewrite !(proj2 (N.eqb_neq _ _)) by lia; reflexivity. }
  constructor; [split; reflexivity|]. constructor; [split; reflexivity|]. repeat constructor; apply H; dm.
Qed.
Lemma escape_safe h r : scalar r -> rfc_chars (escape_of h r) /\ (exists rs, escape_of h r = utf8s rs /\ Forall safe_rune rs) /\
  (h = true -> Forall (fun x => html_char (bN x) = false) (escape_of h r)).
Proof.
  intro S. assert (A : forall l, Forall (fun x => (bN x < 127)%N) l -> exists rs, l = utf8s rs /\ Forall safe_rune rs).
  { intros l F. exists (map bN l). split; [rewrite ascii_utf8s; auto|]. apply Forall_map. eapply Forall_impl; [|exact F].
    intros x Hx. cbn beta in Hx. unfold safe_rune, scalar. lia. }
  destruct (N.lt_ge_cases r 128) as [L|L].
  - assert (E : r = bN (Nb r)) by (rewrite bNb; lia). rewrite E in L |- *. destruct (low_checked h _ L) as (H1 & H2 & H3). auto.
  - rewrite escape_high by auto. destruct (_ || _) eqn:Q.
    + assert (r < 65536)%N as B. { unfold RuneError, uLineSeparator, uParagraphSeparator in Q. rewrite !orb_true_iff, !N.eqb_eq in Q. lia. }
      pose proof (u_escape_low r B) as F. split; [apply u_escape_rfc; auto|]. split.
      * apply A. eapply Forall_impl; [|exact F]. cbn. tauto.
      * intros _. eapply Forall_impl; [|exact F]. cbn. tauto.
    + split; [apply high_rfc; auto|]. split.
      * exists [r]. split; [cbn; rewrite app_nil_r; reflexivity|]. constructor; auto. unfold safe_rune.
        unfold RuneError, uLineSeparator, uParagraphSeparator in Q. rewrite !orb_false_iff, !N.eqb_neq in Q. split; auto. lia.
      * intros _. eapply Forall_impl; [|apply high_bytes; auto]. intros x Hx. cbn beta in Hx. unfold html_char. rewrite !(proj2 (N.eqb_neq _ _)) by lia. reflexivity.
Qed.
Lemma escapes_safe h rs : Forall scalar rs -> rfc_chars (escapes h rs) /\ (exists rs', escapes h rs = utf8s rs' /\ Forall safe_rune rs') /\
  (h = true -> Forall (fun x => html_char (bN x) = false) (escapes h rs)).
Proof.
  unfold escapes. induction 1 as [|r rs S F (IH1 & (rs' & E & IH2) & IH3)]; cbn [map concat].
  - split; [constructor|]. split; [exists []; split; auto|constructor].
  - destruct (escape_safe h r S) as (H1 & (rs0 & E0 & H2) & H3). split; [apply rfc_chars_app; auto|]. split.
    + exists (rs0 ++ rs'). rewrite E0, E. unfold utf8s. rewrite map_app, concat_app. split; auto. apply Forall_app. auto.
    + intro Hh. apply Forall_app. auto.
Qed.

Lemma C27_lem s h : exists out rs, Escaped s h false = Ok out /\ Escaped s h true = Ok (x22 :: out ++ [x22]) /\
  rfc_chars out /\ out = utf8s rs /\ Forall scalar rs /\ ~ In 8232%N rs /\ ~ In 8233%N rs /\
  (h = true -> ~ In x3c out /\ ~ In x3e out /\ ~ In x26 out).
Proof.
  destruct (runes_total s) as (rs & R). destruct (escapes_safe h rs (runes_scalar _ _ R)) as (H1 & (rs' & E & H2) & H3).
  exists (escapes h rs), rs'. split; [apply (Escaped_ok _ _ h false R)|]. split; [apply (Escaped_ok _ _ h true R)|]. split; auto. split; auto.
  split; [eapply Forall_impl; [|exact H2]; unfold safe_rune; tauto|].
  rewrite Forall_forall in H2. split; [intro I; specialize (H2 _ I); unfold safe_rune in H2; tauto|].
  split; [intro I; specialize (H2 _ I); unfold safe_rune in H2; tauto|].
  intro Hh. specialize (H3 Hh). rewrite Forall_forall in H3. repeat split; intro I; specialize (H3 _ I); discriminate.
Qed.
Lemma C27_exact_lem s rs h : runes s rs -> Escaped s h false = Ok (concat (map (escape_of h) rs)).
Proof. intro R. apply (Escaped_ok s rs h false R). Qed.

(* ---- C28, C29 ---- *)

Lemma C28_lem dst s h e : Escaped s h false = Ok e -> AppendEscaped dst s h = Ok (dst ++ e).
Proof.
  destruct (runes_total s) as (rs & R). rewrite (Escaped_ok _ _ h false R). injection 1 as <-. apply AppendEscaped_ok. auto.
Qed.
Lemma Unescaped_inv s o : Unescaped s = Ok o -> unescR s o.
Proof. destruct (unescR_total s) as (o' & H). rewrite (Unescaped_ok _ _ H). injection 1 as <-. auto. Qed.
Lemma Unescaped_total s : exists o, Unescaped s = Ok o /\ length o <= length s.
Proof. destruct (unescR_total s) as (o & H). exists o. split; [apply Unescaped_ok; auto|]. eapply unescR_len; eauto. Qed.
Lemma C29_lem dst s o : Unescaped s = Ok o -> length s <= length dst -> Unescape dst s = Ok (o ++ skipn (length o) dst, length o).
Proof. intros H L. apply Unescape_ok; auto. apply Unescaped_inv. auto. Qed.
Lemma C29_append_lem dst spare s o : Unescaped s = Ok o -> AppendUnescaped dst spare s = Ok (Some (dst ++ o)).
Proof. intro H. apply AppendUnescaped_ok, Unescaped_inv. auto. Qed.

(* ---- C30, C31 ---- *)

Lemma simple_char e c : escape_char e c <-> simpleEscape e = Some c.
Proof.
  split; [destruct 1; reflexivity|]. destruct e; cbv; intro H; try discriminate H; injection H as <-; constructor.
Qed.
Lemma simple_none e : (forall c, ~ escape_char e c) <-> simpleEscape e = None.
Proof.
  split.
  - intro H. destruct (simpleEscape e) as [c|] eqn:E; auto. apply simple_char in E. destruct (H _ E).
  - intros H c E. apply simple_char in E. congruence.
Qed.

Lemma fromHex_ok c : hexdigit c -> bN (fromHex c) = hexval c /\ (hexval c < 16)%N.
Proof.
  intro H. apply hexb_ok in H. assert (E : forallb (fun c => implb (hexb c) ((bN (fromHex c) =? hexval c)%N && (hexval c <? 16)%N)) all_bytes = true) by (vm_compute; reflexivity).
  pose proof (forall_bytes _ E c) as K. cbn beta in K. rewrite H in K. cbn [implb] in K. apply andb_true_iff in K as [K1 K2]. apply N.eqb_eq in K1. apply N.ltb_lt in K2. auto.
Qed.
Lemma hexRune_ok a b c d : hexdigit a -> hexdigit b -> hexdigit c -> hexdigit d -> hexRune a b c d = hex4 a b c d /\ (hex4 a b c d < 65536)%N.
Proof.
  intros Ha Hb Hc Hd. destruct (fromHex_ok _ Ha) as [Ea La], (fromHex_ok _ Hb) as [Eb Lb], (fromHex_ok _ Hc) as [Ec Lc], (fromHex_ok _ Hd) as [Ed Ld].
  unfold hexRune, hex4. rewrite Ea, Eb, Ec, Ed. clear - La Lb Lc Ld. set (p := hexval a) in *. set (q := hexval b) in *. set (r := hexval c) in *. set (s := hexval d) in *.
  split; [|lia].
  rewrite (lor_add p _ 12) by (rewrite N.shiftl_mul_pow2; change (2^12)%N with 4096%N; change (2^8)%N with 256%N; lia).
  replace (p * 2 ^ 12 + N.shiftl q 8)%N with (N.shiftl (p * 16 + q) 8) by (rewrite !N.shiftl_mul_pow2; change (2^12)%N with 4096%N; change (2^8)%N with 256%N; lia).
  rewrite (lor_add _ _ 8) by (rewrite N.shiftl_mul_pow2; change (2^8)%N with 256%N; change (2^4)%N with 16%N; lia).
  replace ((p * 16 + q) * 2 ^ 8 + N.shiftl r 4)%N with (N.shiftl ((p * 16 + q) * 16 + r) 4) by (rewrite !N.shiftl_mul_pow2; change (2^8)%N with 256%N; change (2^4)%N with 16%N; lia).
  rewrite lor_add by (change (2^4)%N with 16%N; lia). change (2^4)%N with 16%N. lia.
Qed.

Lemma pair_ok r1 r2 : high r1 -> low r2 -> DecodeRune16 r1 r2 = (65536 + 1024 * (r1 - 55296) + (r2 - 56320))%N.
Proof.
  unfold high, low. intros H1 H2. unfold DecodeRune16. rewrite !(proj2 (N.leb_le _ _)), !(proj2 (N.ltb_lt _ _)) by lia. cbn [andb].
  rewrite lor_add by (change (2^10)%N with 1024%N; lia). change (2^10)%N with 1024%N. lia.
Qed.

Lemma unesc_u a b c d w : hexdigit a -> hexdigit b -> hexdigit c -> hexdigit d -> scalar (hex4 a b c d) ->
  unesc1 (x5c :: x75 :: a :: b :: c :: d :: w) = Some (utf8 (hex4 a b c d), w).
Proof.
  intros Ha Hb Hc Hd S. destruct (hexRune_ok a b c d) as [E L]; auto. cbn [unesc1 negb beqb]. unfold unesc1. change (negb (beqb x5c delimEscape)) with false.
  change (simpleEscape x75) with (@None byte). change (beqb x75 x75) with true. cbn match. cbv zeta. rewrite E.
  destruct (N.ltb_spec (hex4 a b c d) RuneSelf) as [Q|Q]; unfold RuneSelf in Q.
  - unfold utf8. rewrite (proj2 (N.ltb_lt _ 128)) by auto. reflexivity.
  - rewrite <- EncodeRune_spec by auto. assert (IsSurrogate (hex4 a b c d) = false) as ->; [|reflexivity].
    unfold IsSurrogate, scalar in *. apply andb_false_iff. rewrite N.leb_gt, N.ltb_ge. lia.
Qed.
Lemma not_scalar a b c d : hexdigit a -> hexdigit b -> hexdigit c -> hexdigit d -> ~ scalar (hex4 a b c d) ->
  IsSurrogate (hexRune a b c d) = true /\ (hexRune a b c d <? RuneSelf)%N = false /\ (high (hex4 a b c d) \/ low (hex4 a b c d)).
Proof.
  intros Ha Hb Hc Hd S. destruct (hexRune_ok a b c d) as [E L]; auto. rewrite E. unfold scalar, IsSurrogate, high, low, RuneSelf in *.
  split; [rewrite andb_true_iff, N.leb_le, N.ltb_lt; lia|]. split; [rewrite N.ltb_ge; lia|lia].
Qed.
Lemma unesc_unpaired a b c d w : hexdigit a -> hexdigit b -> hexdigit c -> hexdigit d -> ~ scalar (hex4 a b c d) -> ~ u_next w ->
  unesc1 (x5c :: x75 :: a :: b :: c :: d :: w) = Some (utf8 replacement, w).
Proof.
  intros Ha Hb Hc Hd S U. destruct (not_scalar a b c d) as (E1 & E2 & _); auto. unfold unesc1. change (negb (beqb x5c delimEscape)) with false.
  change (simpleEscape x75) with (@None byte). change (beqb x75 x75) with true. cbn match. cbv zeta. rewrite E2, E1.
  destruct w as [|e [|u [|g1 [|g2 [|g3 [|g4 w]]]]]]; try reflexivity.
  destruct (beqb e delimEscape && beqb u x75) eqn:Q; [|reflexivity]. exfalso. apply U. apply andb_true_iff in Q as [Q1 Q2]. apply beqb_true in Q1, Q2. subst.
  repeat eexists.
Qed.
Lemma unesc_pair a b c d a' b' c' d' w : hexdigit a -> hexdigit b -> hexdigit c -> hexdigit d ->
  hexdigit a' -> hexdigit b' -> hexdigit c' -> hexdigit d' -> high (hex4 a b c d) -> low (hex4 a' b' c' d') ->
  unesc1 (x5c :: x75 :: a :: b :: c :: d :: x5c :: x75 :: a' :: b' :: c' :: d' :: w) =
    Some (utf8 (65536 + 1024 * (hex4 a b c d - 55296) + (hex4 a' b' c' d' - 56320)), w).
Proof.
  intros Ha Hb Hc Hd Ha' Hb' Hc' Hd' H L. destruct (not_scalar a b c d) as (E1 & E2 & _); auto. { unfold high, scalar in *. lia. }
  destruct (hexRune_ok a b c d) as [E _]; auto. destruct (hexRune_ok a' b' c' d') as [E' _]; auto.
  unfold unesc1. change (negb (beqb x5c delimEscape)) with false.
  change (simpleEscape x75) with (@None byte). change (beqb x75 x75) with true. cbn match. cbv zeta. rewrite E2, E1.
  change (beqb x5c delimEscape && true) with true. cbn match. rewrite E, E', pair_ok by auto. rewrite EncodeRune_spec; auto.
  unfold high, low, scalar in *. lia.
Qed.

Lemma hexdec c : {hexdigit c} + {~ hexdigit c}.
Proof. destruct (hexb c) eqn:E; [left; apply hexb_ok; auto|right; intro H; apply hexb_ok in H; congruence]. Qed.
Lemma four_hex_dec w : four_hex w \/ ~ four_hex w.
Proof.
  destruct w as [|a [|b [|c [|d w]]]]; try (right; intros (? & ? & ? & ? & ? & E & _); discriminate).
  destruct (hexdec a), (hexdec b), (hexdec c), (hexdec d); try (right; intros (? & ? & ? & ? & ? & E & ? & ? & ? & ?); injection E as <- <- <- <- <-; contradiction).
  left. repeat eexists; auto.
Qed.
Lemma scalar_dec r : scalar r \/ ~ scalar r. Proof. unfold scalar. lia. Qed.
Lemma starts_low_dec w : starts_low w \/ ~ starts_low w.
Proof.
  destruct w as [|e [|u w]]; try (right; intros (? & ? & ? & ? & ? & E & _); discriminate).
  destruct (byte_eq_dec e x5c) as [->|N1]; [|right; intros (? & ? & ? & ? & ? & E & _); congruence].
  destruct (byte_eq_dec u x75) as [->|N2]; [|right; intros (? & ? & ? & ? & ? & E & _); congruence].
  destruct (four_hex_dec w) as [(a & b & c & d & w' & -> & Ha & Hb & Hc & Hd)|N3].
  2:{ right. intros (a & b & c & d & w' & E & Ha & Hb & Hc & Hd & _). injection E as ->. apply N3. exists a, b, c, d, w'. auto. }
  assert (low (hex4 a b c d) \/ ~ low (hex4 a b c d)) as [L|L] by (unfold low; lia).
  - left. exists a, b, c, d, w'. auto 10.
  - right. intros (? & ? & ? & ? & ? & E & _ & _ & _ & _ & L'). injection E as <- <- <- <- <-. contradiction.
Qed.

(* Every byte string has exactly one meaning. *)
Lemma meaning_total w : exists o, meaning w o.
Proof.
  remember (length w) as n. revert w Heqn. induction n as [n IH] using (well_founded_induction Wf_nat.lt_wf). intros w ->.
  assert (R : forall w', length w' < length w -> exists o, meaning w' o) by (intros w' L; exact (IH _ L w' eq_refl)). clear IH.
  destruct w as [|c w]; [exists []; constructor|].
  destruct (byte_eq_dec c x5c) as [->|Hc].
  2:{ destruct (R w) as (o & H); [cbn; lia|]. exists (c :: o). apply m_plain; auto. }
  destruct w as [|e w]; [exists [x5c]; apply m_last|].
  destruct (simpleEscape e) as [c|] eqn:E.
  { apply simple_char in E. destruct (R w) as (o & H); [cbn; lia|]. exists (c :: o). apply m_escape; auto. }
  pose proof (proj2 (simple_none _) E) as E9. clear E. rename E9 into E. destruct (byte_eq_dec e x75) as [->|He].
  2:{ destruct (R w) as (o & H); [cbn; lia|]. exists (x5c :: e :: o). apply m_bad; auto. }
  destruct (four_hex_dec w) as [(a & b & c & d & w' & -> & Ha & Hb & Hc & Hd)|F].
  2:{ destruct (R w) as (o & H); [cbn; lia|]. exists (x5c :: x75 :: o). apply m_bad_u; auto. }
  destruct (R w') as (o & H); [cbn; lia|].
  destruct (scalar_dec (hex4 a b c d)) as [S|S]; [eexists; apply m_u; eauto|].
  destruct (not_scalar a b c d) as (_ & _ & [Hh|Hl]); auto; [|eexists; apply m_unpaired; eauto].
  destruct (starts_low_dec w') as [(a' & b' & c' & d' & w2 & -> & Ha' & Hb' & Hc' & Hd' & Hl)|Nl]; [|eexists; apply m_unpaired; eauto].
  destruct (R w2) as (o2 & H2); [cbn; lia|]. eexists. apply m_pair; eauto.
Qed.

Lemma meaning_det w o o' : meaning w o -> meaning w o' -> o = o'.
Proof.
  intro H. revert o'.
  assert (X : forall P : Prop, ~ scalar 55296 -> P -> P) by auto.
  induction H as [|c w o Hc H IH|e c w o Hec H IH|a b c d w o Ha Hb Hc Hd S H IH|a b c d a' b' c' d' w o Ha Hb Hc Hd Ha' Hb' Hc' Hd' Hh Hl H IH
    |a b c d w o Ha Hb Hc Hd Hu H IH| |e w o He Hne H IH|w o Hf H IH]; intros o' H'.
  - inversion H'; auto.
  - inversion H'; subst; try congruence. f_equal. auto.
  - apply simple_char in Hec as Q. inversion H' as [|? ? ? Q1|e' c' ? ? Q1 H1| | | | |? ? ? Q1|]; subst; try congruence; try discriminate Q.
    + apply simple_char in Q1. f_equal; [congruence|auto].
    + destruct (Q1 _ Hec).
  - assert (FH : four_hex (a :: b :: c :: d :: w)) by (repeat eexists; auto).
    inversion H' as [|? ? ? Q1|e' c' ? ? Q1 H1| |? ? ? ? ? ? ? ? ? ? ? ? ? ? ? ? ? ? Q1|? ? ? ? ? ? ? ? ? ? Q1| |? ? ? Q1|? ? Q1]; subst; try congruence.
    + inversion Q1.
    + f_equal. auto.
    + unfold scalar, high in *. lia.
    + unfold scalar, high, low in *. lia.
  - assert (FH : four_hex (a :: b :: c :: d :: x5c :: x75 :: a' :: b' :: c' :: d' :: w)) by (repeat eexists; auto).
    inversion H' as [|? ? ? Q1|e2 c2 ? ? Q1 H1|? ? ? ? ? ? ? ? ? ? Q1|? ? ? ? ? ? ? ? ? ? ? ? ? ? ? ? ? ? Q1|? ? ? ? ? ? ? ? ? ? Q1| |? ? ? Q1|? ? Q1]; subst; try congruence.
    + inversion Q1.
    + unfold scalar, high in *. lia.
    + f_equal. auto.
    + exfalso. destruct Q1 as [Q1|[_ Q1]]; [unfold low, high in *; lia|]. apply Q1. exists a', b', c', d', w. auto 10.
  - assert (FH : four_hex (a :: b :: c :: d :: w)) by (repeat eexists; auto).
    inversion H' as [|? ? ? Q1|e2 c2 ? ? Q1 H1|? ? ? ? ? ? ? ? ? ? Q1|? ? ? ? a' b' c' d' w' ? ? ? ? ? Ha' Hb' Hc' Hd' Q1 Q2|? ? ? ? ? ? ? ? ? ? Q1| |? ? ? Q1|? ? Q1]; subst; try congruence.
    + inversion Q1.
    + unfold scalar, high, low in *. lia.
    + exfalso. destruct Hu as [Hu|[_ Hu]]; [unfold low, high in *; lia|]. apply Hu. exists a', b', c', d', w'. auto 10.
    + f_equal. auto.
  - inversion H'; auto. congruence.
  - inversion H' as [|? ? ? Q1|e2 c2 ? ? Q1 H1| | | | |? ? ? Q1|]; subst; try congruence.
    + destruct (He _ Q1).
    + do 2 f_equal. auto.
  - inversion H' as [|? ? ? Q1|e2 c2 ? ? Q1 H1| | | | |? ? ? Q1|]; subst; try congruence; try (exfalso; apply Hf; repeat eexists; auto; fail).
    + inversion Q1.
    + do 2 f_equal. auto.
Qed.

Lemma unesc_step_simple e c w : escape_char e c -> unesc1 (x5c :: e :: w) = Some ([c], w).
Proof. intro H. apply simple_char in H. unfold unesc1. change (negb (beqb x5c delimEscape)) with false. cbn match. rewrite H. reflexivity. Qed.
Lemma unesc_step_bad e w : (forall c, ~ escape_char e c) -> e <> x75 -> unesc1 (x5c :: e :: w) = Some ([x5c; e], w).
Proof. intros H N. pose proof (proj1 (simple_none _) H) as H9. clear H. rename H9 into H. apply beqb_false in N. unfold unesc1. change (negb (beqb x5c delimEscape)) with false. cbn match. rewrite H, N. reflexivity. Qed.

Lemma tame_meaning w : tame w -> exists o, meaning w o /\ unescR w o.
Proof.
  induction 1 as [|c w Hc T (o & M & U)| |e w He T (o & M & U)|w L T (o & M & U)|a b c d w Ha Hb Hc Hd S T (o & M & U)|a b c d a' b' c' d' w Ha Hb Hc Hd Ha' Hb' Hc' Hd' Hh Hl T (o & M & U)].
  - exists []. split; constructor.
  - exists (c :: o). split; [constructor; auto|]. apply (unescR_plain [c] w o); auto. intros [->|[]]. congruence.
  - exists [x5c]. split; [apply m_last|]. apply (ur_step [x5c] [x5c] [] []); [reflexivity|constructor].
  - destruct (simpleEscape e) as [c|] eqn:E.
    + apply simple_char in E. exists (c :: o). split; [apply m_escape; auto|]. apply (ur_step _ [c] w o); auto. apply unesc_step_simple; auto.
    + pose proof (proj2 (simple_none _) E) as E9. clear E. rename E9 into E. exists (x5c :: e :: o). split; [apply m_bad; auto|]. apply (ur_step _ [x5c; e] w o); auto. apply unesc_step_bad; auto.
  - exists (x5c :: x75 :: o). split.
    + apply m_bad_u; auto. intros (? & ? & ? & ? & ? & -> & _). cbn in L. lia.
    + apply (ur_step _ [x5c; x75] w o); auto. destruct w as [|a [|b [|c [|d w]]]]; try reflexivity. cbn in L. lia.
  - destruct (scalar_dec (hex4 a b c d)) as [Sc|Sc].
    + eexists. split; [apply m_u; eauto|]. eapply ur_step; eauto. apply unesc_u; auto.
    + destruct S as [S|S]; [contradiction|]. eexists. split; [|eapply ur_step; [apply unesc_unpaired; eauto|eauto]]. apply m_unpaired; auto.
      destruct (not_scalar a b c d) as (_ & _ & [Q|Q]); auto. right. split; auto. intros (x1 & x2 & x3 & x4 & x5 & E & _). apply S. exists x1, x2, x3, x4, x5. auto.
  - eexists. split; [apply m_pair; eauto|]. eapply ur_step; eauto. apply unesc_pair; auto.
Qed.

Lemma C31_lem w o : tame w -> meaning w o -> Unescaped w = Ok o.
Proof. intros T M. destruct (tame_meaning w T) as (o' & M' & U). rewrite (meaning_det _ _ _ M M'). apply Unescaped_ok. auto. Qed.

Lemma meaning_once w : exists o, meaning w o /\ forall o', meaning w o' -> o' = o.
Proof. destruct (meaning_total w) as (o & M). exists o. split; auto. intros. eapply meaning_det; eauto. Qed.
