(* Proofs for C64. *)
From Verif Require Import Bytes Types JsonSpec StrSpec Utf8 Utf8Proofs Parser ParserProofs ParserErr Doc NumSpec Num NumInt FmtThms ErrText ErrSpec.
Local Open Scope N_scope.

(* ---- the pieces of a quoted string, and reading them back ---- *)
Inductive piece := PRune (r : N) | PBad (c : byte).
Definition raw (p : piece) : bytes := match p with PRune r => utf8 r | PBad c => [c] end.
Definition fine (p : piece) : Prop := match p with PRune r => scalar r | PBad c => 128 <= bN c end.

Lemma hex_back n : n < 16 -> hexval (lowerhex n) = n.
Proof. intro H. unfold hexval, lowerhex. destruct (N.ltb_spec n 10); rewrite bNb by lia; [destruct (N.ltb_spec (48 + n) 58); lia|]. destruct (N.ltb_spec (87 + n) 58); [lia|]. destruct (N.ltb_spec (87 + n) 71); lia. Qed.
Lemma hex_ascii n : n < 16 -> 32 <= bN (lowerhex n) < 127.
Proof. intro H. unfold lowerhex. destruct (N.ltb_spec n 10); rewrite bNb by lia; lia. Qed.
Ltac small := first [apply N.mod_lt; discriminate|apply N.div_lt_upper_bound; [discriminate|lia]].

Definition next (s : bytes) : option (piece * bytes) :=
  match s with
  | x5c :: x78 :: a :: b :: t => let n := 16 * hexval a + hexval b in Some (if n <? 128 then PRune n else PBad (Nb n), t)
  | x5c :: x75 :: a :: b :: c :: d :: t => Some (PRune (hex4 a b c d), t)
  | x5c :: x55 :: a :: b :: c :: d :: a' :: b' :: c' :: d' :: t => Some (PRune (65536 * hex4 a b c d + hex4 a' b' c' d'), t)
  | x5c :: x61 :: t => Some (PRune 7, t) | x5c :: x62 :: t => Some (PRune 8, t) | x5c :: x66 :: t => Some (PRune 12, t) | x5c :: x6e :: t => Some (PRune 10, t)
  | x5c :: x72 :: t => Some (PRune 13, t) | x5c :: x74 :: t => Some (PRune 9, t) | x5c :: x76 :: t => Some (PRune 11, t)
  | x5c :: c :: t => Some (PRune (bN c), t)
  | _ => let (r, w) := DecodeRune s in Some (PRune r, skipn w s)
  end.

Section Print.
  Variable isPrint : N -> bool.
  Definition esc (q : byte) (p : piece) : bytes := match p with PRune r => escapedRune isPrint q r | PBad c => [x5c; x78; lowerhex (bN c / 16); lowerhex (bN c mod 16)] end.
  Definition is_quote (q : byte) : Prop := q = x22 \/ q = x27.

  Lemma next_raw r t : scalar r -> r <> 92 -> next (utf8 r ++ t) = Some (PRune r, t).
  Proof.
    intros S N. pose proof (decode_enc r t S) as D. destruct (utf8_head r S) as (c & u & U & A1 & A2 & A3 & A4).
    assert (c <> x5c) as Nc.
    { intros ->. change (bN x5c) with 92 in *. assert (r < 128 \/ 128 <= r < 2048 \/ 2048 <= r < 65536 \/ 65536 <= r) as [H|[H|[H|H]]] by lia;
      repeat match goal with X : ?P -> _, Y : ?P |- _ => specialize (X Y) end; lia. }
    assert (next (utf8 r ++ t) = let (x, w) := DecodeRune (utf8 r ++ t) in Some (PRune x, skipn w (utf8 r ++ t))) as ->.
    { rewrite U. cbn [app]. destruct c; try reflexivity. contradiction. }
    rewrite D. rewrite skipn_app, skipn_all, Nat.sub_diag. reflexivity.
  Qed.
  Lemma next_esc q p t : is_quote q -> fine p -> next (esc q p ++ t) = Some (p, t).
  Proof.
    intros Q F. destruct p as [r|c]; cbn [esc fine] in *.
    - unfold escapedRune. destruct (N.eqb_spec r (bN q)) as [->|Nq]; cbn [orb].
      { rewrite Nb_bN. destruct Q as [->| ->]; reflexivity. }
      destruct (N.eqb_spec r 92) as [->|Nb]; [reflexivity|]. destruct (isPrint r); [rewrite EncodeRune_spec by exact F; apply next_raw; auto|].
      repeat match goal with |- context [?a =? ?b] => destruct (N.eqb_spec a b) as [->|?]; [reflexivity|] end.
      destruct (N.ltb_spec r 32) as [L|L]; cbn [orb].
      { cbn [app next]. rewrite !hex_back by small.
        pose proof (N.div_mod r 16 ltac:(discriminate)). replace (16 * (r / 16) + r mod 16) with r by lia. destruct (N.ltb_spec r 128); [reflexivity|lia]. }
      destruct (N.eqb_spec r 127) as [->|N7]; [reflexivity|]. destruct (N.ltb_spec r 65536) as [L2|L2].
      + cbn [app next]. unfold hex4. rewrite !hex_back by small.
        repeat f_equal. clear - L2. zify. Z.to_euclidean_division_equations. lia.
      + assert (r < 1114112) by (unfold scalar in F; lia). cbn [app next]. unfold hex4. rewrite !hex_back by small.
        repeat f_equal. clear - H. zify. Z.to_euclidean_division_equations. lia.
    - cbn [app next]. pose proof (bN_lt c). rewrite !hex_back by small.
      pose proof (N.div_mod (bN c) 16 ltac:(discriminate)). replace (16 * (bN c / 16) + bN c mod 16) with (bN c) by lia. destruct (N.ltb_spec (bN c) 128); [lia|]. rewrite Nb_bN. reflexivity.
  Qed.
  Lemma esc_inj q p p' t t' : is_quote q -> fine p -> fine p' -> esc q p ++ t = esc q p' ++ t' -> p = p' /\ t = t'.
  Proof. intros Q F F' E. pose proof (next_esc q p t Q F) as H. rewrite E, (next_esc q p' t' Q F') in H. injection H as <- <-. auto. Qed.

  (* ---- the pieces of any string ---- *)
  Lemma quoted_skip q a b : quotedWith isPrint q (length a) (a ++ b) = quotedWith isPrint q O b.
  Proof. induction a as [|c a IH]; [reflexivity|]. cbn [app length quotedWith]. exact IH. Qed.
  Lemma quoted_cons q c s : quotedWith isPrint q O (c :: s) = let (r, width) := DecodeRune (c :: s) in
    if (width =? 1)%nat && (r =? RuneError) then x5c :: x78 :: lowerhex (bN c / 16) :: lowerhex (bN c mod 16) :: quotedWith isPrint q O s
    else escapedRune isPrint q r ++ quotedWith isPrint q (pred width) s.
  Proof. cbn [quotedWith DecodeRune]. destruct (bN c <? RuneSelf); reflexivity. Qed.
  Lemma pieces n : forall s, (length s <= n)%nat -> exists ps, Forall fine ps /\ s = flat_map raw ps /\ forall q, quotedWith isPrint q O s = flat_map (esc q) ps.
  Proof.
    induction n as [|n IH]; intros s L; (destruct s as [|c s]; [exists []; repeat split; constructor|]); [cbn in L; lia|]. cbn [length] in L.
    destruct (decode_inv c s) as [(r & t & S & E & D)|[D B]].
    - destruct (utf8 r) as [|c' u] eqn:U; [destruct (utf8_nonempty r U)|]. cbn [app] in E. injection E as <- ->. rewrite app_length in L.
      destruct (IH t ltac:(lia)) as (ps & F & -> & Q). exists (PRune r :: ps). split; [constructor; auto|]. split; [cbn [flat_map raw]; rewrite U; reflexivity|].
      intro q. rewrite quoted_cons, D. cbn [flat_map esc length pred]. rewrite quoted_skip, Q.
      destruct (N.eqb_spec r RuneError) as [->|]; [|rewrite Bool.andb_false_r; reflexivity]. apply (f_equal (@length byte)) in U. cbn [length] in U. rewrite <- U. reflexivity.
    - destruct (IH s ltac:(lia)) as (ps & F & E & Q). exists (PBad c :: ps). split; [constructor; auto|]. split; [cbn [flat_map raw app]; rewrite <- E; reflexivity|].
      intro q. rewrite quoted_cons, D. cbn [Nat.eqb andb]. rewrite N.eqb_refl, Q. reflexivity.
  Qed.

  (* ---- quoted texts can be read back ---- *)
  Lemma esc_head q p : is_quote q -> fine p -> exists c u, esc q p = c :: u /\ c <> q.
  Proof.
    intros Q F. assert (x5c <> q) as B by (destruct Q as [->| ->]; discriminate).
    destruct p as [r|c]; cbn [esc fine] in *; [|eauto]. unfold escapedRune. destruct (N.eqb_spec r (bN q)) as [->|Nq]; cbn [orb]; [eauto|]. destruct (r =? 92); [eauto|].
    destruct (isPrint r).
    - rewrite EncodeRune_spec by exact F. destruct (utf8_head r F) as (c & u & U & A1 & A2 & A3 & A4). exists c, u. split; [exact U|]. intros ->.
      assert (bN q < 128) by (destruct Q as [->| ->]; reflexivity).
      assert (r < 128 \/ 128 <= r < 2048 \/ 2048 <= r < 65536 \/ 65536 <= r) as [H'|[H'|[H'|H']]] by lia.
      + destruct (A1 H') as [X _]. congruence.
      + destruct (A2 H') as [X _]. lia.
      + destruct (A3 H') as [X _]. lia.
      + destruct (A4 H') as [X _]. lia.
    - repeat match goal with |- context [if ?b then _ else _] => destruct b end; eauto.
  Qed.
  Lemma escs_inj q ps : is_quote q -> forall ps' a a', Forall fine ps -> Forall fine ps' -> flat_map (esc q) ps ++ q :: a = flat_map (esc q) ps' ++ q :: a' -> ps = ps' /\ a = a'.
  Proof.
    intro Q. induction ps as [|p ps IH]; intros [|p' ps'] a a' F F' E; cbn [flat_map app] in E.
    - injection E as E. auto.
    - inversion F' as [|? ? F1 F2]. destruct (esc_head q p' Q F1) as (c & u & X & N). rewrite X in E. cbn in E. injection E as E _. congruence.
    - inversion F as [|? ? F1 F2]. destruct (esc_head q p Q F1) as (c & u & X & N). rewrite X in E. cbn in E. injection E as E _. congruence.
    - inversion F as [|? ? F1 F2]. inversion F' as [|? ? F1' F2']. subst. rewrite <- !app_assoc in E. apply esc_inj in E as [-> E]; auto. apply IH in E as [-> ->]; auto.
  Qed.
  Lemma quoteString_inj s s' a a' : quoteString isPrint s ++ a = quoteString isPrint s' ++ a' -> s = s' /\ a = a'.
  Proof.
    destruct (pieces _ s (le_n _)) as (ps & F & E & Q). destruct (pieces _ s' (le_n _)) as (ps' & F' & E' & Q'). unfold quoteString. rewrite Q, Q'. cbn [app]. rewrite <- !app_assoc. cbn [app].
    intro H. injection H as H. apply escs_inj in H as [-> ->]; [|left; reflexivity|auto|auto]. rewrite E, E'. auto.
  Qed.
  Lemma byte_scalar c : scalar (bN c).
  Proof. pose proof (bN_lt c). unfold scalar. lia. Qed.
  Lemma quoteRune_inj c c' a a' : quoteRune isPrint c ++ a = quoteRune isPrint c' ++ a' -> c = c' /\ a = a'.
  Proof.
    unfold quoteRune. cbn [app]. rewrite <- !app_assoc. cbn [app]. intro H. injection H as H.
    apply (esc_inj x27 (PRune (bN c)) (PRune (bN c'))) in H as [E H]; [|right; reflexivity|apply byte_scalar|apply byte_scalar]. injection E as E. injection H as ->. split; [apply bN_inj; exact E|reflexivity].
  Qed.
  Lemma quoteRune_head c a : exists u, quoteRune isPrint c ++ a = x27 :: u.
  Proof. eexists. reflexivity. Qed.
  Lemma runes_cons c cs a : exists u, spaced (map (quoteRune isPrint) (c :: cs)) ++ a = quoteRune isPrint c ++ u /\
    u = match cs with [] => a | _ :: _ => x20 :: spaced (map (quoteRune isPrint) cs) ++ a end.
  Proof. destruct cs as [|d cs]; eexists; (split; [|reflexivity]); [reflexivity|]. cbn [map spaced]. rewrite <- app_assoc. reflexivity. Qed.
  Lemma runes_inj cs : forall cs' a a', spaced (map (quoteRune isPrint) cs) ++ x5d :: a = spaced (map (quoteRune isPrint) cs') ++ x5d :: a' -> cs = cs' /\ a = a'.
  Proof.
    induction cs as [|c cs IH]; intros [|c' cs'] a a' E.
    - cbn in E. injection E as E. auto.
    - destruct (runes_cons c' cs' (x5d :: a')) as (u & X & _). rewrite X in E. discriminate E.
    - destruct (runes_cons c cs (x5d :: a)) as (u & X & _). rewrite X in E. discriminate E.
    - destruct (runes_cons c cs (x5d :: a)) as (u & X & U). destruct (runes_cons c' cs' (x5d :: a')) as (u' & X' & U'). rewrite X, X' in E. apply quoteRune_inj in E as [-> E]. rewrite U, U' in E. clear X X' U U'.
      destruct cs as [|d cs], cs' as [|d' cs']; try discriminate E; [injection E as ->; auto|]. apply (f_equal (@tl byte)) in E. cbn [tl] in E. apply IH in E as [E ->]. rewrite E. auto.
  Qed.
  Lemma quoteGot_inj g g' a a' : quoteGot isPrint g ++ a = quoteGot isPrint g' ++ a' -> g = g' /\ a = a'.
  Proof. destruct g, g'; cbn [quoteGot]; intro E; try discriminate E; [apply quoteRune_inj in E as [-> ->]|apply quoteString_inj in E as [-> ->]]; auto. Qed.
  Lemma quoteWant_inj g g' a a' : quoteWant isPrint g ++ a = quoteWant isPrint g' ++ a' -> g = g' /\ a = a'.
  Proof.
    destruct g, g'; cbn [quoteWant]; intro E; try discriminate E; [apply quoteString_inj in E as [-> ->]|apply quoteRune_inj in E as [-> ->]|]; auto.
    unfold bracketed in E. cbn [app] in E. rewrite <- !app_assoc in E. injection E as E. apply runes_inj in E as [-> ->]. auto.
  Qed.
End Print.

(* ---- numbers ---- *)
Lemma digits_split d : forall d' a a', digits d -> digits d' -> d ++ x20 :: a = d' ++ x20 :: a' -> d = d' /\ a = a'.
Proof.
  induction d as [|c d IH]; intros [|c' d'] a a' D D' E; cbn [app] in E.
  - injection E as E. auto.
  - inversion D' as [|? ? X Y]. injection E as <- _. red in X. change (bN x20) with 32 in X. lia.
  - inversion D as [|? ? X Y]. injection E as -> _. red in X. change (bN x20) with 32 in X. lia.
  - inversion D. inversion D'. subst. injection E as -> E. apply IH in E as [-> ->]; auto.
Qed.
Lemma number_inj n m a a' : FormatUint n ++ x20 :: a = FormatUint m ++ x20 :: a' -> n = m /\ a = a'.
Proof.
  destruct (FormatUint_spec n) as (D & _ & V). destruct (FormatUint_spec m) as (D' & _ & V'). intro E. apply digits_split in E as [E ->]; auto. split; [|reflexivity].
  rewrite E in V. lia.
Qed.

(* ---- names ---- *)
Definition below : list N := map N.of_nat (seq 0 256).
Lemma below_in t : t < 256 -> In t below.
Proof. intro H. unfold below. rewrite <- (N2Nat.id t). apply in_map, in_seq. lia. Qed.
Definition pairs_of (f : N -> bytes) (same : N -> N -> bool) (l : list (N * bytes)) : bool :=
  forallb (fun x => forallb (fun y => if bseqb (snd x) (snd y) then same (fst x) (fst y) else true) l) l.
Definition pairs_ok (f : N -> bytes) (same : N -> N -> bool) : bool := pairs_of f same (map (fun t => (t, f t)) below).
Lemma pairs_of_spec f same l : pairs_of f same (map (fun t => (t, f t)) l) = true -> forall t u, In t l -> In u l -> f t = f u -> same t u = true.
Proof.
  intros P t u T U E. unfold pairs_of in P. rewrite forallb_forall in P. specialize (P (t, f t) (in_map (fun t => (t, f t)) _ _ T)). rewrite forallb_forall in P.
  specialize (P (u, f u) (in_map (fun t => (t, f t)) _ _ U)). cbn [fst snd] in P. rewrite E in P. rewrite (proj2 (bseqb_true (f u) (f u)) eq_refl) in P. exact P.
Qed.
Lemma pairs_spec f same t u : pairs_ok f same = true -> t < 256 -> u < 256 -> f t = f u -> same t u = true.
Proof. intros P T U. unfold pairs_ok in P. apply (pairs_of_spec _ _ _ P); apply below_in; assumption. Qed.
Lemma mask_below t : type_mask t -> t < 128.
Proof.
  intro H. assert (N.land t (N.ones 7) = t) as E.
  { unfold type_mask in H. rewrite <- H at 1. rewrite <- N.land_assoc. change (N.land (N.lor TypeString (N.lor TypeNumber (N.lor TypeBoolean (N.lor TypeObject (N.lor TypeArray TypeNull))))) (N.ones 7)) with TypeAnyValue. exact H. }
  rewrite N.land_ones in E. rewrite <- E. apply N.mod_lt. discriminate.
Qed.
Definition nameless (t : N) : bool := (t =? 0) || (t =? 1) || (t =? 128).
Definition alike (t u : N) : bool := (t =? u) || (nameless t && nameless u).
Lemma C64_names_lem t u : t < 256 -> u < 256 -> Type_String t = Type_String u -> t = u \/ (In t [0; 1; 128] /\ In u [0; 1; 128]).
Proof.
  intros T U E. apply (pairs_spec Type_String alike) in E; [|vm_compute; reflexivity|exact T|exact U]. unfold alike, nameless in E.
  apply Bool.orb_true_iff in E as [E|E]; [left; apply N.eqb_eq; exact E|right]. apply Bool.andb_true_iff in E as [A B].
  rewrite !Bool.orb_true_iff, !N.eqb_eq in A, B. split; cbn [In]; intuition.
Qed.
Lemma mask_name t u : type_mask t -> type_mask u -> Type_String t = Type_String u -> t = u.
Proof.
  intros T U E. pose proof (mask_below _ T). pose proof (mask_below _ U). apply C64_names_lem in E as [E|[A B]]; [exact E| |lia|lia].
  unfold type_mask in T, U. cbn [In] in A, B. destruct A as [<-|[<-|[<-|[]]]], B as [<-|[<-|[<-|[]]]]; try discriminate T; try discriminate U; reflexivity.
Qed.
Lemma mask_types t u : type_mask t -> type_mask u -> Types_text t = Types_text u -> t = u.
Proof.
  intros T U E. pose proof (mask_below _ T). pose proof (mask_below _ U).
  apply (pairs_spec Types_text (fun t u => (t =? u) || negb (N.land t TypeAnyValue =? t) || negb (N.land u TypeAnyValue =? u))) in E; [|vm_compute; reflexivity|lia|lia].
  unfold type_mask in T, U. rewrite T, U, !N.eqb_refl in E. cbn [negb] in E. rewrite !Bool.orb_false_r in E. apply N.eqb_eq. exact E.
Qed.
(* no name begins another *)
Fixpoint after (p s : bytes) : option bytes := match p, s with [], _ => Some s | a :: p, b :: s => if beqb a b then after p s else None | _ :: _, [] => None end.
Lemma after_app p a : after p (p ++ a) = Some a.
Proof. induction p as [|c p IH]; [reflexivity|]. cbn. rewrite (proj2 (beqb_true c c) eq_refl). exact IH. Qed.
Definition apart_of (l : list bytes) : bool := forallb (fun x => forallb (fun y => match after x y with Some (_ :: _) => false | _ => true end) l) l.
Lemma apart_of_spec l : apart_of l = true -> forall x z, In x l -> In (x ++ z) l -> z = [].
Proof.
  intros P x z X Y. unfold apart_of in P. rewrite forallb_forall in P. specialize (P _ X). rewrite forallb_forall in P. specialize (P _ Y). rewrite after_app in P. destruct z; [reflexivity|discriminate].
Qed.
Lemma names_apart : apart_of (map Type_String below) = true.
Proof. vm_compute. reflexivity. Qed.
Lemma apart t u z : t < 256 -> u < 256 -> Type_String u = Type_String t ++ z -> z = [].
Proof.
  intros T U E. apply (apart_of_spec _ names_apart (Type_String t)); [exact (in_map Type_String _ _ (below_in t T))|]. rewrite <- E. exact (in_map Type_String _ _ (below_in u U)).
Qed.
Lemma name_split t u a b : t < 256 -> u < 256 -> Type_String t ++ a = Type_String u ++ b -> Type_String t = Type_String u /\ a = b.
Proof.
  intros T U E. apply app_eq_app in E as (z & [[A B]|[A B]]); pose proof A as Z; apply apart in Z; auto; subst z; rewrite app_nil_r in A; auto.
Qed.

(* ---- the types in the errors of the parser ---- *)
Definition perror_type (e : perror) : N := match e with UnexpectedEOF t => t | ParseError _ t _ _ => t end.
Definition types_at (f : nat) : Prop :=
  (forall ns s pos e, parseValue f ns s pos = PErr e -> type_mask (perror_type e)) /\
  (forall ns s pos e, parseArray f ns s pos = PErr e -> type_mask (perror_type e)) /\
  (forall ns id acc s pos e, arrayValue f ns id acc s pos = PErr e -> type_mask (perror_type e)) /\
  (forall ns s pos e, parseObject f ns s pos = PErr e -> type_mask (perror_type e)) /\
  (forall ns id acc s pos e, objectKey f ns id acc s pos = PErr e -> type_mask (perror_type e)).
Ltac now_type H := injection H as <-; reflexivity.
Lemma readLiteral_type ns i t l s pos e : type_mask t -> readLiteral ns i t l s pos = PErr e -> type_mask (perror_type e).
Proof. intros T H. unfold readLiteral, pdone in H. destruct (_ <=? _)%nat; [destruct (bseqb _ _); [discriminate|]|]; injection H as <-; exact T. Qed.
Lemma parse_types : forall f, types_at f.
Proof.
  induction f as [|f (IHv & IHa & IHe & IHo & IHm)].
  { repeat split; simpl; intros; discriminate. }
  repeat split.
  - intros ns s pos e H. destruct (skipSpace s pos) as [s1 pos1] eqn:Esk. destruct s1 as [|c r]; [erewrite pv_eof in H by eauto; now_type H|].
    destruct (start_byte c) eqn:Ec; [|erewrite pv_bad in H by eauto; now_type H].
    apply start_cases in Ec as [->|[->|[->|[->|[->|[->|Hd]]]]]].
    + erewrite pv_str in H by eauto. unfold pdone in H. destruct (readString r); [discriminate|now_type H].
    + erewrite pv_arr in H by eauto. eauto.
    + erewrite pv_obj in H by eauto. eauto.
    + erewrite pv_true in H by eauto. eapply readLiteral_type in H; [exact H|reflexivity].
    + erewrite pv_false in H by eauto. eapply readLiteral_type in H; [exact H|reflexivity].
    + erewrite pv_null in H by eauto. eapply readLiteral_type in H; [exact H|reflexivity].
    + erewrite pv_num in H by eauto. discriminate.
  - intros ns s pos e H. cbn [parseArray] in H. destruct (skipSpace s pos) as [s1 pos1]. destruct s1 as [|c r]; [now_type H|]. destruct (beqb c delimEndArray); [discriminate|]. eauto.
  - intros ns id acc s pos e H. cbn [arrayValue] in H. destruct (parseValue f ns s pos) as [ns1 p1 t1|e'|] eqn:Ev; try discriminate; [|injection H as <-; eauto].
    destruct (skipSpace t1 p1) as [s2 pos2]. destruct s2 as [|c r]; [now_type H|]. destruct (beqb c delimValueSeparator); [eauto|]. destruct (beqb c delimEndArray); [discriminate|now_type H].
  - intros ns s pos e H. cbn [parseObject] in H. destruct (skipSpace s pos) as [s1 pos1]. destruct s1 as [|c r]; [now_type H|]. destruct (beqb c delimEndObject); [discriminate|].
    destruct (beqb c delimString); [eauto|now_type H].
  - intros ns id acc s pos e H. cbn [objectKey] in H. destruct (scanQuote s 0) as [i|]; [|now_type H].
    destruct (skipSpace (skipn (S i) s) _) as [s1 pos1]. destruct s1 as [|c r]; [now_type H|]. destruct (beqb c delimNameSeparator); [|now_type H].
    destruct (parseValue f ns r _) as [ns1 p1 t1|e'|] eqn:Ev; try discriminate; [|injection H as <-; eauto].
    destruct (skipSpace t1 p1) as [s2 pos2]. destruct s2 as [|c2 r2]; [now_type H|]. destruct (beqb c2 delimValueSeparator).
    + destruct (skipSpace r2 _) as [s3 pos3]. destruct s3 as [|c3 r3]; [now_type H|]. destruct (beqb c3 delimString); [eauto|now_type H].
    + destruct (beqb c2 delimEndObject); [discriminate|now_type H].
Qed.
Lemma parse_type w r s w' n t e : Document_Parse w r s = Ok (w', (n, t, Some e)) -> type_mask (perror_type e).
Proof.
  unfold Document_Parse. destruct (nth_error w r) as [d|]; [|discriminate]. unfold parseNodes. destruct (parseValue _ _ s 0) as [ns p t'|e'|] eqn:E; try discriminate.
  apply (proj1 (parse_types _)) in E. destruct e'; intro H; injection H as _ _ _ <-; exact E.
Qed.

(* ---- messages ---- *)
Lemma perror_inj isPrint e e' : type_mask (perror_type e) -> type_mask (perror_type e') -> perror_Error isPrint e = perror_Error isPrint e' -> e = e'.
Proof.
  intros T T' H. destruct e as [t|p t g w], e' as [t'|p' t' g' w']; cbn [perror_Error perror_type] in *; try discriminate H.
  - apply app_inv_head in H. apply mask_name in H as ->; auto.
  - apply app_inv_head in H. apply quoteGot_inj in H as [-> H]. apply app_inv_head in H. apply quoteWant_inj in H as [-> H]. apply app_inv_head in H. 
    change (str " while scanning ") with (x20 :: str "while scanning ") in H. cbn [app] in H. apply number_inj in H as [-> H]. apply app_inv_head in H. apply mask_name in H as ->; auto.
Qed.
Lemma C64_parse_lem isPrint w r s w1 n t e w' r' s' w1' n' t' e' :
  Document_Parse w r s = Ok (w1, (n, t, Some e)) -> Document_Parse w' r' s' = Ok (w1', (n', t', Some e')) -> perror_Error isPrint e = perror_Error isPrint e' -> e = e'.
Proof. intros A B. apply perror_inj; [exact (parse_type _ _ _ _ _ _ _ A)|exact (parse_type _ _ _ _ _ _ _ B)]. Qed.
Lemma C64_type_lem t want t' want' : type_mask t -> type_mask want -> type_mask t' -> type_mask want' -> terr_Error (TypeErr t want) = terr_Error (TypeErr t' want') ->
  t = t' /\ ((N.land want t <> 0 /\ N.land want' t <> 0) \/ want = want').
Proof.
  intros T W T' W' H. pose proof (mask_below _ T). pose proof (mask_below _ T'). cbn [terr_Error] in H.
  destruct (N.eqb_spec (N.land want t) 0) as [Z|Z], (N.eqb_spec (N.land want' t') 0) as [Z'|Z']; cbn [negb] in H; try discriminate H.
  - apply app_inv_head in H. apply name_split in H as [E H]; [|lia|lia]. apply app_inv_head in H. apply mask_name in E; auto. apply mask_types in H; auto.
  - apply app_inv_head in H. apply mask_name in H; auto. subst t'. auto.
Qed.

(* ---- one line ---- *)
Definition printable (c : byte) : Prop := 32 <= bN c < 127.
Lemma line_app a b : one_line a -> one_line b -> one_line (a ++ b).
Proof. intros (r & F & ->) (r' & F' & ->). exists (r ++ r'). split; [apply Forall_app; auto|]. unfold utf8s. rewrite map_app, concat_app. reflexivity. Qed.
Lemma ascii_line s : Forall printable s -> one_line s.
Proof.
  intro F. exists (map bN s). split.
  - apply Forall_map. eapply Forall_impl; [|exact F]. intros c H. unfold printable in H. split; [apply byte_scalar|unfold control; lia].
  - induction F as [|c s H F IH]; [reflexivity|]. cbn [map]. unfold utf8s in *. cbn [map concat]. rewrite <- IH. unfold utf8. unfold printable in H. destruct (N.ltb_spec (bN c) 128); [|lia]. rewrite Nb_bN. reflexivity.
Qed.
Ltac asc := apply ascii_line; repeat (apply Forall_cons; [split; vm_compute; [discriminate|reflexivity]|]); apply Forall_nil.
Lemma spaced_line l : Forall one_line l -> one_line (spaced l).
Proof.
  induction 1 as [|x l H F IH]; [asc|]. cbn [spaced]. destruct l; [exact H|]. apply line_app; [exact H|]. apply (line_app [x20]); [asc|exact IH].
Qed.
Lemma bracketed_line l : Forall one_line l -> one_line (bracketed l).
Proof. intro F. unfold bracketed. apply (line_app [x5b]); [asc|]. apply line_app; [apply spaced_line; exact F|asc]. Qed.
Lemma typeName_line t s : typeName t = Some s -> one_line s.
Proof. unfold typeName. repeat match goal with |- context [if ?b then _ else _] => destruct b; [intro H; injection H as <-; asc|] end. discriminate. Qed.
Lemma oneName_line t : one_line (oneName t).
Proof. unfold oneName. destruct (typeName t) eqn:E; [exact (typeName_line _ _ E)|asc]. Qed.
Lemma types_line t : one_line (Types_text t).
Proof. apply bracketed_line, Forall_map, Forall_forall. intros. apply oneName_line. Qed.
Lemma type_line t : one_line (Type_String t).
Proof. unfold Type_String. destruct (typeName t) eqn:E; [exact (typeName_line _ _ E)|]. destruct (1 <? onesCount8 t)%nat; [apply types_line|asc]. Qed.
Lemma number_line n : one_line (FormatUint n).
Proof. apply ascii_line. destruct (FormatUint_spec n) as (D & _ & _). eapply Forall_impl; [|exact D]. intros c H. red in H. unfold printable. lia. Qed.
Ltac lasc := apply ascii_line; repeat (apply Forall_cons; [first [apply hex_ascii; small|split; vm_compute; [discriminate|reflexivity]]|]); apply Forall_nil.
Lemma esc_line isPrint q p : prints isPrint -> is_quote q -> fine p -> one_line (esc isPrint q p).
Proof.
  intros P Q F. destruct p as [r|c]; cbn [esc fine] in *; [|pose proof (bN_lt c); lasc].
  unfold escapedRune. destruct (N.eqb_spec r (bN q)) as [->|Nq]; cbn [orb].
  { rewrite Nb_bN. destruct Q as [->| ->]; asc. }
  destruct (N.eqb_spec r 92) as [->|Nb]; [asc|]. destruct (isPrint r) eqn:Ip.
  { rewrite EncodeRune_spec by exact F. exists [r]. split; [apply Forall_cons; [split; [exact F|apply P; exact Ip]|apply Forall_nil]|]. unfold utf8s. cbn [map concat]. rewrite app_nil_r. reflexivity. }
  repeat match goal with |- context [?a =? ?b] => destruct (N.eqb_spec a b) as [->|?]; [asc|] end.
  destruct (N.ltb_spec r 32) as [L|L]; cbn [orb]; [lasc|]. destruct (N.eqb_spec r 127) as [->|N7]; [asc|].
  assert (r < 1114112) by (unfold scalar in F; lia). destruct (N.ltb_spec r 65536) as [L2|L2]; lasc.
Qed.
Lemma quoteString_line isPrint s : prints isPrint -> one_line (quoteString isPrint s).
Proof.
  intro P. destruct (pieces isPrint _ s (le_n _)) as (ps & F & _ & Q). unfold quoteString. rewrite Q. apply (line_app [x22]); [asc|]. apply line_app; [|asc].
  clear Q. induction F as [|p ps H F IH]; [asc|]. cbn [flat_map]. apply line_app; [apply esc_line; auto; left; reflexivity|exact IH].
Qed.
Lemma quoteRune_line isPrint c : prints isPrint -> one_line (quoteRune isPrint c).
Proof. intro P. unfold quoteRune. apply (line_app [x27]); [asc|]. apply line_app; [|asc]. apply (esc_line isPrint x27 (PRune (bN c))); [exact P|right; reflexivity|apply byte_scalar]. Qed.
Lemma C64_line_lem isPrint : prints isPrint -> (forall e, one_line (perror_Error isPrint e)) /\ (forall e, one_line (terr_Error e)).
Proof.
  intro P. split; intros []; cbn [perror_Error terr_Error].
  - apply line_app; [asc|apply type_line].
  - apply line_app; [asc|]. apply line_app; [destruct got; [apply quoteRune_line|apply quoteString_line]; exact P|]. apply line_app; [asc|]. apply line_app.
    { destruct want; [apply quoteString_line; exact P|apply quoteRune_line; exact P|]. apply bracketed_line, Forall_map, Forall_forall. intros. apply quoteRune_line, P. }
    apply line_app; [asc|]. apply line_app; [apply number_line|]. apply line_app; [asc|apply type_line].
  - destruct (negb _); (apply line_app; [asc|]); [apply type_line|]. apply line_app; [apply type_line|]. apply line_app; [asc|apply types_line].
Qed.
