(* Proofs for C73. *)
From Coq Require Import Sorted.
From Verif Require Import Bytes Tables Types JsonSpec StrSpec Utf8 Utf8Proofs Parser Doc Strjson LexProofs StrProofs StrThms ErrText ErrSpec ErrThms GoLit GoLitSpec GoLitThms Tag TagSpec TagThms GenFile GenFileSpec GenFileThms Gen GenSpec GenFields Bytemaper TableThms OkThms MapCmd MapSpec.
Local Open Scope N_scope.

(* ---- tables ---- *)
Lemma mask_len tr : length (mask tr) = 256%nat.
Proof. unfold mask. rewrite map_length. reflexivity. Qed.
Lemma mask_entry tr c : tbl (mask tr) c = tr c.
Proof. apply mask_tbl. reflexivity. Qed.
Lemma table_mask t (P : byte -> byte -> Prop) tr : (forall c x, P c x -> x = tr c) -> table t P -> t = mask tr.
Proof.
  intros Fn [L T]. apply (nth_ext _ _ x00 x00); [rewrite mask_len; exact L|]. rewrite L. intros n Hn.
  pose proof (T (Nb (N.of_nat n))) as A. apply Fn in A. rewrite <- (mask_entry tr) in A. unfold tbl in A. rewrite bNb, Nnat.Nat2N.id in A by lia. exact A.
Qed.
Lemma mask_table tr (P : byte -> byte -> Prop) : (forall c, P c (tr c)) -> table (mask tr) P.
Proof. intro H. split; [apply mask_len|]. intro c. rewrite mask_entry. apply H. Qed.
Lemma mask_same tr tr' : (forall c, tr c = tr' c) -> mask tr = mask tr'.
Proof. intro H. unfold mask. apply map_ext. exact H. Qed.

Definition kind_ok (U : uni) (k : bytes) (tr : byte -> byte) : Prop := forall c x, entry U k c x <-> x = tr c.
Lemma gen_json c : genToJSON c = toJSON c.
Proof. destruct c; reflexivity. Qed.
Lemma truth_fn b x : truth b x <-> x = if b then x01 else x00.
Proof. reflexivity. Qed.
Lemma ascii_fn f c x : ascii_rune (f (bN c)) x <-> x = trTo f c.
Proof.
  unfold ascii_rune, trTo. destruct (Z.leb_spec 0 (f (bN c))); [destruct (Z.leb_spec (f (bN c)) 127)|]; cbn [andb]; split.
  - intros [(E & L)|(E & L)]; [|lia]. rewrite E, N2Z.id, Nb_bN. reflexivity.
  - intros ->. left. rewrite bNb by lia. split; lia.
  - intros [(E & L)|(E & ->)]; [lia|reflexivity].
  - intros ->. right. split; [lia|reflexivity].
  - intros [(E & L)|(E & ->)]; [lia|reflexivity].
  - intros ->. right. split; [lia|reflexivity].
Qed.
Lemma small_eq (n m : N) (x : byte) : bN x + m = n -> x = Nb (n - m).
Proof. intros <-. rewrite N.add_sub, Nb_bN. reflexivity. Qed.
Ltac kindof := let H := fresh in intro H;
  match type of H with entry _ ?k _ _ => let E := fresh in remember k as k' eqn:E; destruct H; try (vm_compute in E; discriminate E); clear E end.
Ltac sm := match goal with
  | H : bN ?x + ?m = bN ?c |- ?x = _ => exact (small_eq _ _ _ H)
  | H : bN ?c = bN ?x + ?m |- ?x = _ => exact (small_eq _ _ _ (eq_sym H))
  | H : bN ?x = bN ?c + ?m |- ?x = _ => rewrite <- H, Nb_bN; reflexivity end.
Ltac cmp := repeat match goal with |- context [?a <=? ?b] => destruct (N.leb_spec a b) end; cbn [andb]; try lia.
Lemma kind_json U : kind_ok U (str "ToJSON") genToJSON.
Proof. intros c x. rewrite gen_json. split; [kindof; symmetry; apply table_json_iff; assumption|intros ->; constructor; apply table_json]. Qed.
Ltac nbs := rewrite ?bNb by lia; try lia.
Lemma kind_3166 U : kind_ok U (str "ToISO3166") toISO3166.
Proof.
  intros c x. unfold toISO3166, upperLetter, lowerLetter. split.
  - kindof; cmp; try reflexivity. sm.
  - intros ->. cmp; first [apply en_Z; lia|apply en_upper; lia|apply en_raised; [lia|nbs]].
Qed.
Lemma kind_639 U : kind_ok U (str "ToISO639") toISO639.
Proof.
  intros c x. unfold toISO639, upperLetter, lowerLetter. split.
  - kindof; cmp; first [reflexivity|sm].
  - intros ->. cmp; first [apply en_z; lia|apply en_lower; lia|apply en_lowered; [lia|nbs]].
Qed.
Lemma hex_once x n : hexdigit x -> ~ 65 <= bN x <= 70 -> hexval x = n -> x = lowerhex n.
Proof.
  unfold hexdigit, hexval, lowerhex. intros H L <-. destruct (N.ltb_spec (bN x) 58) as [A|A].
  - destruct (N.ltb_spec (bN x - 48) 10); [|lia]. replace (48 + (bN x - 48)) with (bN x) by lia. rewrite Nb_bN. reflexivity.
  - destruct (N.ltb_spec (bN x) 71); [lia|]. destruct (N.ltb_spec (bN x - 87) 10); [lia|]. replace (87 + (bN x - 87)) with (bN x) by lia. rewrite Nb_bN. reflexivity.
Qed.
Lemma genhex_lower c : bN c < 16 -> genToHex c = lowerhex (bN c).
Proof. intro L. unfold genToHex, lowerhex. destruct (N.leb_spec (bN c) 9), (N.ltb_spec (bN c) 10); try lia; [f_equal; lia|]. destruct (N.leb_spec (bN c) 15); [f_equal; lia|lia]. Qed.
Lemma lowerhex_small n : n < 16 -> hexdigit (lowerhex n) /\ ~ 65 <= bN (lowerhex n) <= 70.
Proof. intro L. unfold hexdigit, lowerhex. destruct (N.ltb_spec n 10); rewrite bNb by lia; lia. Qed.
Lemma kind_tohex U : kind_ok U (str "ToHex") genToHex.
Proof.
  intros c x. split.
  - kindof; [rewrite genhex_lower by assumption; apply hex_once; assumption|]. unfold genToHex. cmp. reflexivity.
  - intros ->. assert (bN c < 16 \/ 16 <= bN c) as [L|L] by lia; [rewrite genhex_lower by exact L; destruct (lowerhex_small _ L); constructor; auto; apply hex_back; exact L|].
    unfold genToHex. cmp. apply en_nohex. exact L.
Qed.
Lemma kind_fromhex U : kind_ok U (str "FromHex") genFromHex.
Proof.
  intros c x. unfold genFromHex. split.
  - kindof; cmp; try reflexivity; match goal with H : bN ?x + _ = bN ?c |- ?x = Nb ?e => rewrite <- (Nb_bN x); f_equal; lia end.
  - intros ->. cmp; first [apply en_other; lia|apply en_digit; [lia|nbs]|apply en_small; [lia|nbs]|apply en_large; [lia|nbs]].
Qed.
Lemma kind_table U k tr : namedTable U k = Some tr -> In k kinds /\ kind_ok U k tr.
Proof.
  unfold namedTable.
  repeat match goal with |- (if bseqb k ?s then _ else _) = _ -> _ => destruct (bseqb k s) eqn:?E; [apply bseqb_true in E; subst k; injection 1 as <-; split; [cbn; tauto|]|clear E] end; [..|discriminate 1].
  - apply kind_json.
  - apply kind_3166.
  - apply kind_639.
  - apply kind_tohex.
  - apply kind_fromhex.
  - intros c x. split; [kindof; assumption|intros ->; constructor; reflexivity].
  - intros c x. split; [kindof; assumption|intros ->; constructor; reflexivity].
  - intros c x. split; [kindof; assumption|intros ->; constructor; reflexivity].
  - intros c x. split; [kindof; assumption|intros ->; constructor; reflexivity].
  - intros c x. split; [kindof; assumption|intros ->; constructor; reflexivity].
  - intros c x. split; [kindof; apply ascii_fn; assumption|intros ->; constructor; apply ascii_fn; reflexivity].
  - intros c x. split; [kindof; apply ascii_fn; assumption|intros ->; constructor; apply ascii_fn; reflexivity].
  - intros c x. split; [kindof; apply ascii_fn; assumption|intros ->; constructor; apply ascii_fn; reflexivity].
Qed.
Lemma kind_some U k : In k kinds -> exists tr, namedTable U k = Some tr.
Proof. cbn [kinds map In]. intro H. repeat destruct H as [<-|H]; [..|destruct H]; eexists; vm_compute; reflexivity. Qed.
Lemma kind_none U k : namedTable U k = None <-> ~ In k kinds.
Proof.
  split; intro H.
  - intro I. destruct (kind_some U k I) as (tr & E). congruence.
  - destruct (namedTable U k) eqn:E; [|reflexivity]. apply kind_table in E as [I _]. contradiction.
Qed.

(* ---- what is behind the colon ---- *)
Lemma tag_value_fn b : exists o, Unquote b = Some o /\ forall v, o = Some v <-> tag_value b v.
Proof. apply Unquote_iff. Qed.
Lemma last_ends s : s <> [] -> (last s x00 = x22 <-> ends s [x22]).
Proof.
  intro N. split.
  - intro L. exists (removelast s). rewrite <- L. apply app_removelast_last. exact N.
  - intros (a & ->). apply last_last.
Qed.
Lemma arg_given s : exists v, strconvUnquote (wrapQuotes s) = Some v /\ ((given s v) \/ (v = [] /\ forall v', ~ given s v')).
Proof.
  unfold wrapQuotes. destruct (Nat.leb_spec 2 (length s)) as [L|L]; cbn [andb].
  2: { exists []. split; [|right; split; [reflexivity|intros v' [L' _]; lia]]. destruct s as [|a [|b s]]; cbn in *; [reflexivity|reflexivity|lia]. }
  assert (Ne : s <> []) by (destruct s; [cbn in L; lia|discriminate]).
  destruct (beqb_spec (List.hd x00 s) x22) as [H|H]; cbn [negb andb].
  - destruct s as [|c r]; [congruence|]. cbn [List.hd] in H. subst c. assert (r <> []) as Nr by (destruct r; [cbn in L; lia|discriminate]).
    cbn [strconvUnquote]. destruct (exists_last Nr) as (m & q & ->). rewrite rev_app_distr. cbn [rev app]. rewrite beqb_refl. cbn [andb].
    destruct (beqb_spec q x22) as [->|Q].
    + rewrite rev_involutive. destruct (tag_value_fn m) as (o & -> & F). destruct o as [v|]; eexists; (split; [reflexivity|]).
      * left. split; [exact L|]. right. exists m. split; [reflexivity|apply F; reflexivity].
      * right. split; [reflexivity|]. intros v' [_ [(A & _)|(b & E & V)]]; [apply A; eauto|]. injection E as E. apply app_inj_tail in E as [<- _]. apply F in V. discriminate.
    + eexists. split; [reflexivity|]. right. split; [reflexivity|]. intros v' [_ [(A & _)|(b & E & V)]]; [apply A; eauto|]. injection E as E. apply app_inj_tail in E as [_ ->]. congruence.
  - assert (NH : ~ exists r, s = x22 :: r) by (intros (r & ->); apply H; reflexivity).
    destruct (beqb_spec (last s x00) x22) as [H'|H']; cbn [negb].
    + exists []. split; [|right; split; [reflexivity|intros v' [_ [(_ & A & _)|(b & -> & V)]]; [apply A, last_ends; assumption|apply NH; eauto]]].
      destruct s as [|c r]; [congruence|]. cbn [strconvUnquote List.hd] in *. apply beqb_false in H. destruct (rev r); [reflexivity|]. rewrite H. reflexivity.
    + cbn [strconvUnquote]. rewrite rev_app_distr. cbn [rev app]. rewrite beqb_refl. cbn [andb]. rewrite rev_involutive.
      destruct (tag_value_fn s) as (o & -> & F). destruct o as [v|]; eexists; (split; [reflexivity|]).
      * left. split; [exact L|]. left. split; [exact NH|]. split; [rewrite <- last_ends by exact Ne; exact H'|apply F; reflexivity].
      * right. split; [reflexivity|]. intros v' [_ [(_ & _ & V)|(b & -> & V)]]; [apply F in V; discriminate|apply NH; eauto].
Qed.
Lemma given_fn s v v' : given s v -> given s v' -> v = v'.
Proof.
  intros [_ G] [_ G']. destruct G as [(A & B & V)|(b & -> & V)], G' as [(A' & B' & V')|(b' & E' & V')].
  - destruct (tag_value_fn s) as (o & _ & F). apply F in V. apply F in V'. congruence.
  - exfalso. apply A. subst. eauto.
  - exfalso. apply A'. eauto.
  - injection E' as E'. apply app_inj_tail in E' as [<- _]. destruct (tag_value_fn b) as (o & _ & F). apply F in V. apply F in V'. congruence.
Qed.
Lemma arg_is s v : given s v -> strconvUnquote (wrapQuotes s) = Some v.
Proof. intro G. destruct (arg_given s) as (v' & -> & [G'|(_ & N)]); [f_equal; eapply given_fn; eassumption|destruct (N v G)]. Qed.
Lemma arg_not s : (forall v, ~ given s v) -> strconvUnquote (wrapQuotes s) = Some [].
Proof. intro N. destruct (arg_given s) as (v' & -> & [G'|(-> & _)]); [destruct (N v' G')|reflexivity]. Qed.

(* ---- arguments ---- *)
Lemma kind_colon k : In k kinds -> ~ In x3a k /\ k <> [].
Proof. cbn [kinds map In]. intro H. repeat destruct H as [<-|H]; [..|destruct H]; (split; [vm_compute; intuition discriminate|discriminate]). Qed.
Lemma colon_split n s : ~ In x3a n -> indexByte x3a (n ++ x3a :: s) = Some (length n).
Proof. intro N. apply indexByte_spec. exists n, s. auto. Qed.
Lemma split_parts (n s : bytes) : firstn (length n) (n ++ x3a :: s) = n /\ skipn (S (length n)) (n ++ x3a :: s) = s.
Proof.
  split; [rewrite firstn_app, Nat.sub_diag, firstn_all; cbn [firstn]; apply app_nil_r|].
  rewrite skipn_app, skipn_all2 by lia. replace (S (length n) - length n)%nat with 1%nat by lia. reflexivity.
Qed.
Definition argBody (U : uni) (name arg : bytes) : option (bytes * bytes) :=
  match namedTable U name with Some tr => Some (nameOrDefault arg name, mask tr) | None => match name with [] => None | _ => Some (name, mask (isOneOf arg)) end end.
Lemma oneArg_colon U n s : ~ In x3a n -> oneArg U (n ++ x3a :: s) = match strconvUnquote (wrapQuotes s) with None => None | Some arg => Some (argBody U n arg) end.
Proof.
  intro N. unfold oneArg, argBody. rewrite colon_split by exact N. destruct (split_parts n s) as [-> ->].
  destruct (strconvUnquote (wrapQuotes s)) as [arg|]; [|reflexivity]. destruct (namedTable U n); [reflexivity|]. destruct n; reflexivity.
Qed.
Lemma oneArg_plain U n : ~ In x3a n -> oneArg U n = Some (argBody U n []).
Proof. intro N. unfold oneArg, argBody. apply LexProofs.indexByte_none in N. rewrite N. destruct (namedTable U n); [reflexivity|]. destruct n; reflexivity. Qed.
Lemma set_table v t : table t (fun c x => truth (existsb (beqb c) v) x) <-> t = mask (isOneOf v).
Proof.
  split.
  - apply table_mask. intros c x E. exact E.
  - intros ->. apply mask_table. intro c. reflexivity.
Qed.
Lemma zero_mask : repeat x00 256 = mask (isOneOf []).
Proof. reflexivity. Qed.
Lemma kind_mask U k tr t : namedTable U k = Some tr -> (table t (entry U k) <-> t = mask tr).
Proof.
  intro E. apply kind_table in E as [_ K]. split.
  - apply table_mask. intros c x. apply K.
  - intros ->. apply mask_table. intro c. apply K. reflexivity.
Qed.
Lemma kind_body U k tr arg : namedTable U k = Some tr -> argBody U k arg = Some (nameOrDefault arg k, mask tr).
Proof. intro E. unfold argBody. rewrite E. reflexivity. Qed.
Lemma other_body U n arg : ~ In n kinds -> n <> [] -> argBody U n arg = Some (n, mask (isOneOf arg)).
Proof. intros I N. unfold argBody. rewrite (proj2 (kind_none U n) I). destruct n; [congruence|reflexivity]. Qed.
Lemma asks_one U a n t : asks U a n t -> oneArg U a = Some (Some (n, t)).
Proof.
  destruct 1 as [k t I T|k s v t I G N T|k s t I G T|n s v t C K N G T|n s t C K N G ->|n t C K N ->].
  - destruct (kind_some U k I) as (tr & E). rewrite oneArg_plain by (apply kind_colon; exact I). rewrite (kind_body _ _ _ _ E). apply (kind_mask _ _ _ _ E) in T. subst. reflexivity.
  - destruct (kind_some U k I) as (tr & E). rewrite oneArg_colon by (apply kind_colon; exact I). rewrite (arg_is _ _ G), (kind_body _ _ _ _ E). apply (kind_mask _ _ _ _ E) in T. subst. destruct v; [congruence|reflexivity].
  - destruct (kind_some U k I) as (tr & E). rewrite oneArg_colon by (apply kind_colon; exact I). apply (kind_mask _ _ _ _ E) in T. subst.
    destruct (arg_given s) as (v & -> & [Gv|(-> & _)]); rewrite (kind_body _ _ _ _ E); [rewrite (G v Gv)|]; reflexivity.
  - rewrite oneArg_colon, (arg_is _ _ G), other_body by assumption. apply set_table in T. subst. reflexivity.
  - rewrite oneArg_colon, (arg_not _ G), other_body, zero_mask by assumption. reflexivity.
  - rewrite oneArg_plain, other_body, zero_mask by assumption. reflexivity.
Qed.
Lemma name_cases a : (~ In x3a a) \/ exists n s, a = n ++ x3a :: s /\ ~ In x3a n.
Proof. destruct (indexByte x3a a) as [i|] eqn:E; [right; apply indexByte_spec in E as (n & s & -> & N & _); eauto|left; apply indexByte_none; exact E]. Qed.
Lemma one_total U a : (nameless a /\ oneArg U a = Some None) \/ exists n t, asks U a n t.
Proof.
  destruct (name_cases a) as [N|(n & s & -> & N)].
  - destruct (namedTable U a) as [tr|] eqn:E.
    + right. exists a, (mask tr). apply as_kind; [apply (kind_table _ _ _ E)|apply (kind_mask _ _ _ _ E); reflexivity].
    + destruct a as [|c a]; [left; split; [left; reflexivity|reflexivity]|]. right. do 2 eexists. apply as_empty; [exact N|apply (kind_none U); exact E|discriminate|reflexivity].
  - destruct (namedTable U n) as [tr|] eqn:E.
    + right. pose proof (proj1 (kind_table _ _ _ E)) as I. pose proof (proj2 (kind_mask U n tr (mask tr) E) eq_refl) as T.
      destruct (arg_given s) as (v & _ & [G|(_ & G)]).
      * destruct v as [|c v]; [exists n, (mask tr); apply as_unnamed; auto; intros v' G'; symmetry; apply (given_fn _ _ _ G G')|]. exists (c :: v), (mask tr). apply as_named; auto. discriminate.
      * exists n, (mask tr). apply as_unnamed; auto. intros v' G'. destruct (G v' G').
    + destruct n as [|c n].
      * left. split; [right; exists s; reflexivity|]. rewrite (oneArg_colon U []) by (intros []). destruct (arg_given s) as (v & -> & _). unfold argBody. rewrite E. reflexivity.
      * right. exists (c :: n). destruct (arg_given s) as (v & _ & [G|(_ & G)]); eexists.
        -- eapply as_set; [exact N|apply (kind_none U); exact E|discriminate|exact G|apply set_table; reflexivity].
        -- apply as_bad; [exact N|apply (kind_none U); exact E|discriminate|exact G|reflexivity].
Qed.
Lemma one_fatal U a : oneArg U a = Some None <-> nameless a.
Proof.
  destruct (one_total U a) as [[A B]|(n & t & A)]; [tauto|]. rewrite (asks_one _ _ _ _ A). split; [discriminate|]. intros [->|(s & ->)].
  - exfalso. inversion A; subst; try congruence; match goal with H : In [] kinds |- _ => apply kind_colon in H; tauto | H : ?k ++ _ :: _ = [] |- _ => destruct k; discriminate | _ => idtac end.
  - exfalso. assert (X : forall k (s' : bytes), k ++ x3a :: s' = x3a :: s -> ~ In x3a k -> k = []) by (intros [|c k] s' E N; [reflexivity|injection E as -> _; destruct N; left; reflexivity]).
    inversion A; subst; try (match goal with H : ?k ++ _ :: _ = _ :: _, C : ~ In _ ?k |- _ => pose proof (X _ _ H C); congruence
      | H : ?k ++ _ :: _ = _ :: _, I : In ?k kinds |- _ => destruct (kind_colon _ I) as [C N]; pose proof (X _ _ H C); congruence
      | I : In _ kinds |- _ => destruct (kind_colon _ I) as [C N]; destruct C; left; reflexivity
      | C : ~ In _ (_ :: _) |- _ => destruct C; left; reflexivity end).
Qed.
Lemma asks_iff U a n t : asks U a n t <-> oneArg U a = Some (Some (n, t)).
Proof.
  split; [apply asks_one|]. intro E. destruct (one_total U a) as [[_ B]|(n' & t' & A)]; [congruence|]. pose proof (asks_one _ _ _ _ A). replace n with n' by congruence. replace t with t' by congruence. exact A.
Qed.
Lemma C73_args_lem U a : (nameless a /\ forall n t, ~ asks U a n t) \/ (~ nameless a /\ exists n t, asks U a n t /\ forall n' t', asks U a n' t' -> n' = n /\ t' = t).
Proof.
  destruct (one_total U a) as [[N B]|(n & t & A)].
  - left. split; [exact N|]. intros n t A. apply asks_one in A. congruence.
  - right. split; [intro N; apply (one_fatal U) in N; apply asks_one in A; congruence|]. exists n, t. split; [exact A|]. intros n' t' A'. apply asks_one in A. apply asks_one in A'. split; congruence.
Qed.

(* ---- the map ---- *)
Lemma before_trans a : forall b c, before a b -> before b c -> before a c.
Proof.
  intros b c H. revert c. induction H; intros z H'; inversion H'; subst; try (constructor; try lia; auto; fail).
Qed.
Lemma before_irr a : ~ before a a.
Proof. induction a as [|c a IH]; intro H; inversion H; subst; [lia|auto]. Qed.
Lemma less_total a : forall b, less a b = false -> a <> b -> less b a = true.
Proof.
  induction a as [|c a IH]; intros [|d b] L N; cbn [less] in *; try congruence; try reflexivity; try discriminate.
  destruct (N.ltb_spec (bN c) (bN d)); [discriminate|]. destruct (N.ltb_spec (bN d) (bN c)); [reflexivity|]. assert (c = d) as -> by (apply bN_inj; lia). apply IH; congruence.
Qed.
Definition sorted (l : list (bytes * bytes)) : Prop := StronglySorted (fun a b => before (fst a) (fst b)) l.
Lemma put_spec l n m : sorted l -> sorted (putMask l n m) /\ forall k v, In (k, v) (putMask l n m) <-> (k = n /\ v = m) \/ (k <> n /\ In (k, v) l).
Proof.
  induction l as [|[k0 v0] l IH]; intro S; cbn [putMask].
  - split; [repeat constructor|]. intros k v. cbn. split; [intros [E|[]]; left; split; congruence|intros [[-> ->]|[_ []]]; auto].
  - inversion S as [|? ? S' F]; subst. rewrite Forall_forall in F. destruct (bseqb n k0) eqn:E.
    + apply bseqb_true in E. subst k0. split; [constructor; [exact S'|apply Forall_forall; exact F]|]. intros k v. cbn [In]. split.
      * intros [X|X]; [left; split; congruence|]. right. split; [intros ->; apply (before_irr n); exact (F _ X)|right; exact X].
      * intros [[-> ->]|[N [X|X]]]; [left; reflexivity|congruence|right; exact X].
    + apply bseqb_false in E. destruct (less n k0) eqn:L.
      * assert (B : before n k0) by (apply C60_order_lem; exact L). split.
        -- constructor; [exact S|]. constructor; [exact B|]. apply Forall_forall. intros x X. apply (before_trans _ k0); [exact B|apply F; exact X].
        -- intros k v. cbn [In]. split.
           ++ intros [X|[X|X]]; [left; split; congruence|right; split; [congruence|left; exact X]|]. right. split; [|right; exact X]. intros ->. apply (before_irr n), (before_trans _ k0); [exact B|exact (F _ X)].
           ++ intros [[-> ->]|[N X]]; auto.
      * destruct (IH S') as [I1 I2]. split.
        -- constructor; [exact I1|]. apply Forall_forall. intros [k v] X. apply I2 in X as [[-> ->]|[_ X]]; [cbn [fst]; apply C60_order_lem, less_total; assumption|apply (F _ X)].
        -- intros k v. cbn [In]. rewrite I2. split.
           ++ intros [X|[X|[N X]]]; [right; split; [congruence|left; exact X]|left; exact X|right; split; [exact N|right; exact X]].
           ++ intros [X|[N [X|X]]]; [right; left; exact X|left; exact X|right; right; split; assumption].
Qed.
Lemma all_spec U args : forall l, sorted l ->
  (Exists nameless args /\ allArgs U args l = Some None) \/
  (Forall (fun a => ~ nameless a) args /\ exists l', allArgs U args l = Some (Some l') /\ sorted l' /\
     forall n t, In (n, t) l' <-> (exists pre a post, args = pre ++ a :: post /\ asks U a n t /\ forall a' t', In a' post -> ~ asks U a' n t') \/ (In (n, t) l /\ forall a' t', In a' args -> ~ asks U a' n t')).
Proof.
  induction args as [|a args IH]; intros l S; cbn [allArgs].
  - right. split; [constructor|]. exists l. split; [reflexivity|]. split; [exact S|]. intros n t. split; [intro I; right; split; [exact I|intros a' t' []]|]. intros [(pre & a & post & E & _)|[I _]]; [destruct pre; discriminate|exact I].
  - destruct (C73_args_lem U a) as [(N & _)|(N & n & t & A & Un)].
    + left. split; [left; exact N|]. apply (one_fatal U) in N. rewrite N. reflexivity.
    + pose proof (asks_one _ _ _ _ A) as ->. destruct (put_spec l n t S) as [S' P]. destruct (IH _ S') as [(X & ->)|(X & l' & -> & S2 & P2)].
      * left. split; [right; exact X|reflexivity].
      * right. split; [constructor; assumption|]. exists l'. split; [reflexivity|]. split; [exact S2|]. intros k v. rewrite P2, P. split.
        -- intros [(pre & b & post & -> & B & L)|[[[-> ->]|[Nk I]] L]].
           ++ left. exists (a :: pre), b, post. auto.
           ++ left. exists [], a, args. auto.
           ++ right. split; [exact I|]. intros a' t' [<-|Ia]; [|apply L; exact Ia]. intro Q. apply Un in Q as [-> _]. congruence.
        -- intros [(pre & b & post & E & B & L)|[I L]].
           ++ destruct pre as [|p pre]; cbn [app] in E; injection E as <- ->.
              ** right. apply Un in B as [-> ->]. auto.
              ** left. exists pre, b, post. auto.
           ++ right. split; [right; split; [|exact I]|intros a' t' Ia; apply L; right; exact Ia]. intros ->. exact (L a t (or_introl eq_refl) A).
Qed.
Lemma run_spec U args : (Exists nameless args /\ allArgs U args [] = Some None) \/ (Forall (fun a => ~ nameless a) args /\ exists l, allArgs U args [] = Some (Some l) /\ tables U args l).
Proof.
  destruct (all_spec U args [] (SSorted_nil _)) as [X|(X & l & E & S & P)]; [left; exact X|]. right. split; [exact X|]. exists l. split; [exact E|]. split; [exact S|]. intros n t. rewrite P. split; [intros [Y|[[] _]]; exact Y|left; exact H].
Qed.

(* ---- literals ---- *)
Section Lit.
  Variable isPrint : N -> bool.
  Hypothesis Pr : prints isPrint.
  Hypothesis Bom : isPrint 65279 = false.
  Lemma go_chars s t v : Forall (fun c => c <> x22 /\ c <> x0a /\ c <> x5c) s -> go_string t v -> go_string (s ++ t) (s ++ v).
  Proof. induction 1 as [|c s (A & B & C) _ IH]; intro H; [exact H|]. cbn [app]. apply gs_char; auto. Qed.
  Lemma utf8_plain r : scalar r -> r <> 34 -> r <> 10 -> r <> 92 -> Forall (fun c => c <> x22 /\ c <> x0a /\ c <> x5c) (utf8 r).
  Proof.
    intros S A B C. apply Forall_forall. intros c I. repeat split; intros ->; apply utf8_low_in in I as [E _]; try exact S; try reflexivity; vm_compute in E; congruence.
  Qed.
  Lemma hex_lower n : n < 16 -> hexdigit (lowerhex n).
  Proof. intro L. apply lowerhex_small. exact L. Qed.
  Lemma utf8_small r : r < 128 -> utf8 r = [Nb r].
  Proof. intro L. unfold utf8. apply N.ltb_lt in L. rewrite L. reflexivity. Qed.
  Lemma esc_string p t v : fine p -> go_string t v -> go_string (esc isPrint x22 p ++ t) (raw p ++ v).
  Proof.
    intros F G. destruct p as [r|c]; cbn [esc raw fine] in *.
    - unfold escapedRune. change (bN x22) with 34. destruct (N.eqb_spec r 34) as [->|N1]; cbn [orb]; [apply (gs_escape x22 x22 t v); [constructor|exact G]|].
      destruct (N.eqb_spec r 92) as [->|N2]; [apply (gs_escape x5c x5c t v); [constructor|exact G]|].
      destruct (isPrint r) eqn:Ip.
      { rewrite EncodeRune_spec by exact F. apply go_chars; [|exact G]. apply utf8_plain; auto. intros ->. apply (Pr 10 Ip). left. reflexivity. }
      repeat match goal with |- context [r =? ?n] => destruct (N.eqb_spec r n) as [->|?];
        [first [apply (gs_escape _ _ t v); [constructor|exact G]|apply (gs_byte x37 x66 t v); [vm_compute; right; right; split; discriminate|vm_compute; right; right; split; discriminate|exact G]]|] end.
      destruct (N.ltb_spec r 32) as [L|L]; cbn [orb app].
      { replace (utf8 r ++ v) with (Nb (16 * hexval (lowerhex (r / 16)) + hexval (lowerhex (r mod 16))) :: v).
        - apply gs_byte; [apply hex_lower; small|apply hex_lower; small|exact G].
        - rewrite !hex_back by small. rewrite utf8_small by lia. cbn [app]. do 2 f_equal. pose proof (N.div_mod r 16 ltac:(discriminate)). lia. }
      destruct (N.eqb_spec r 127) as [->|N7].
      { apply (gs_byte x37 x66 t v); [apply (hex_lower 7); reflexivity|apply (hex_lower 15); reflexivity|exact G]. }
      destruct (N.ltb_spec r 65536) as [L2|L2].
      + cbn [app]. replace (utf8 r) with (utf8 (hex4 (lowerhex (r / 4096)) (lowerhex ((r / 256) mod 16)) (lowerhex ((r / 16) mod 16)) (lowerhex (r mod 16)))).
        * assert (E : hex4 (lowerhex (r / 4096)) (lowerhex ((r / 256) mod 16)) (lowerhex ((r / 16) mod 16)) (lowerhex (r mod 16)) = r)
            by (unfold hex4; rewrite !hex_back by small; clear - L2; zify; Z.to_euclidean_division_equations; lia).
          apply gs_u; try (apply hex_lower; small); [rewrite E; exact F|exact G].
        * f_equal. unfold hex4. rewrite !hex_back by small. clear - L2. zify. Z.to_euclidean_division_equations. lia.
      + assert (Lr : r < 1114112) by (unfold scalar in F; lia). cbn [app].
        assert (E : 65536 * hex4 (lowerhex (r / 268435456)) (lowerhex ((r / 16777216) mod 16)) (lowerhex ((r / 1048576) mod 16)) (lowerhex ((r / 65536) mod 16)) +
          hex4 (lowerhex ((r / 4096) mod 16)) (lowerhex ((r / 256) mod 16)) (lowerhex ((r / 16) mod 16)) (lowerhex (r mod 16)) = r)
          by (unfold hex4; rewrite !hex_back by small; clear - Lr; zify; Z.to_euclidean_division_equations; lia).
        rewrite <- E at 9. apply gs_U; [repeat (apply Forall_cons; [apply hex_lower; small|]); apply Forall_nil|rewrite E; exact F|exact G].
    - pose proof (bN_lt c) as Lc. cbn [app]. replace c with (Nb (16 * hexval (lowerhex (bN c / 16)) + hexval (lowerhex (bN c mod 16)))) at 3.
      + apply gs_byte; [apply hex_lower; small|apply hex_lower; small|exact G].
      + rewrite !hex_back by small. pose proof (N.div_mod (bN c) 16 ltac:(discriminate)). rewrite <- (Nb_bN c) at 3. f_equal. lia.
  Qed.
  Lemma source_app a b : source_text a -> source_text b -> source_text (a ++ b).
  Proof. intros (ra & Fa & ->) (rb & Fb & ->). exists (ra ++ rb). split; [apply Forall_app; auto|]. unfold utf8s. rewrite map_app, concat_app. reflexivity. Qed.
  Lemma ascii_source s : Forall printable s -> source_text s.
  Proof.
    induction 1 as [|c s [L H] _ IH]; [exists []; split; [constructor|reflexivity]|]. apply (source_app [c]); [|exact IH]. exists [bN c]. split.
    - repeat constructor; [unfold scalar; lia|lia|lia].
    - unfold utf8s. cbn [map concat]. rewrite app_nil_r, utf8_small, Nb_bN by lia. reflexivity.
  Qed.
  Ltac sasc := apply ascii_source; repeat (apply Forall_cons; [first [apply hex_ascii; small|split; vm_compute; [discriminate|reflexivity]]|]); apply Forall_nil.
  Lemma esc_source p : fine p -> source_text (esc isPrint x22 p).
  Proof.
    intro F. destruct p as [r|c]; cbn [esc fine] in *; [|pose proof (bN_lt c); sasc].
    unfold escapedRune. destruct (N.eqb_spec r (bN x22)) as [->|Nq]; cbn [orb]; [sasc|].
    destruct (N.eqb_spec r 92) as [->|Nb]; [sasc|]. destruct (isPrint r) eqn:Ip.
    { rewrite EncodeRune_spec by exact F. exists [r]. split; [|unfold utf8s; cbn [map concat]; rewrite app_nil_r; reflexivity]. apply Forall_cons; [|apply Forall_nil]. split; [exact F|]. split; [intros ->; apply (Pr 0 Ip); left; reflexivity|congruence]. }
    repeat match goal with |- context [?a =? ?b] => destruct (N.eqb_spec a b) as [->|?]; [sasc|] end.
    destruct (N.ltb_spec r 32) as [L|L]; cbn [orb]; [sasc|]. destruct (N.eqb_spec r 127) as [->|N7]; [sasc|].
    assert (r < 1114112) by (unfold scalar in F; lia). destruct (N.ltb_spec r 65536) as [L2|L2]; sasc.
  Qed.
  Lemma quote_lit s : exists q, quoteString isPrint s = x22 :: q ++ [x22] /\ source_text q /\ go_string q s.
  Proof.
    exists (quotedWith isPrint x22 O s). split; [reflexivity|]. destruct (pieces isPrint _ s (le_n _)) as (ps & F & -> & Q). rewrite Q. clear Q. induction F as [|p ps H F [S G]]; cbn [flat_map].
    - split; [exists []; split; [constructor|reflexivity]|constructor].
    - split; [apply source_app; [apply esc_source; exact H|exact S]|apply esc_string; assumption].
  Qed.

  (* ---- the file ---- *)
  Definition more (ls : list bytes) : bytes := flat_map (cons x0a) ls.
  Lemma lines_more l ls : noLF l -> Forall noLF ls -> lines (l ++ more ls) = l :: ls.
  Proof. intros N F. revert l N. induction F as [|l' ls N' F IH]; intros l N; cbn [more flat_map app]; [rewrite app_nil_r; apply lines_one; exact N|]. rewrite lines_cons by exact N. f_equal. apply IH. exact N'. Qed.
  Lemma more_app a b : more (a ++ b) = more a ++ more b.
  Proof. apply flat_map_app. Qed.
  Lemma is_prefix n : HasPrefix n (str "Is") = true <-> exists r, n = str "Is" ++ r.
  Proof. apply HasPrefix_iff. Qed.
  Definition constOf (prefix : bytes) (e : bytes * bytes) : bytes := x09 :: prefix ++ fst e ++ str " = " ++ quoteString isPrint (snd e).
  Definition funcOf (prefix : bytes) (e : bytes * bytes) : list bytes :=
    let n := fst e in
    if HasPrefix n (str "Is") then [[]; str "func " ++ n ++ str "(c byte) bool {"; x09 :: str "return " ++ prefix ++ n ++ str "[c] == 1"; str "}"]
    else [[]; str "func " ++ n ++ str "(c byte) byte {"; x09 :: str "return " ++ prefix ++ n ++ str "[c]"; str "}"].
  Lemma func_more prefix l : flat_map (funcText prefix) l = more (List.concat (map (funcOf prefix) l)).
  Proof.
    induction l as [|e l IH]; [reflexivity|]. cbn [flat_map map List.concat]. rewrite more_app, <- IH. f_equal. unfold funcText, funcOf. destruct (HasPrefix (fst e) (str "Is")); cbn [more flat_map app]; rewrite <- !app_assoc; cbn [app]; rewrite ?app_nil_r; rewrite <- ?app_assoc; reflexivity.
  Qed.
  Lemma const_more prefix l : flat_map (constLine isPrint prefix) l = more (map (constOf prefix) l).
  Proof. induction l as [|e l IH]; [reflexivity|]. cbn [flat_map map more]. rewrite IH. reflexivity. Qed.
  Definition fileLines (pkg prefix : bytes) (l : list (bytes * bytes)) : list bytes :=
    [str "package " ++ pkg; []; str "const ("] ++ map (constOf prefix) l ++ [str ")"] ++ List.concat (map (funcOf prefix) l) ++ [[]].
  Lemma file_more pkg prefix l : tableFile isPrint pkg prefix l = str "// Code generated by bytemaper; DO NOT EDIT." ++ more (fileLines pkg prefix l).
  Proof.
    unfold tableFile, fileLines. rewrite const_more, func_more, !more_app. f_equal. unfold more at 3. cbn [flat_map app]. rewrite <- !app_assoc. reflexivity.
  Qed.
  Lemma file_lines pkg prefix l : noLF pkg -> noLF prefix -> Forall (fun e => noLF (fst e)) l -> table_lines pkg prefix l (lines (tableFile isPrint pkg prefix l)).
  Proof.
    intros Np Nx Nl. exists (map (constOf prefix) l), (map (funcOf prefix) l). split; [|split].
    - clear - Pr Bom. induction l as [|e l IH]; constructor; [|exact IH]. destruct (quote_lit (snd e)) as (q & Q & Sq & Gq). exists q. split; [|auto]. unfold constOf. rewrite Q. reflexivity.
    - clear. induction l as [|e l IH]; constructor; [|exact IH]. unfold funcOf. destruct (HasPrefix (fst e) (str "Is")) eqn:Pf.
      + apply is_prefix in Pf as (n & ->). apply fl_is.
      + apply fl_to. intros r E. assert (X : HasPrefix (fst e) (str "Is") = true) by (apply is_prefix; eauto). congruence.
    - rewrite file_more, lines_more; [reflexivity|apply noLF_dec; reflexivity|]. unfold fileLines.
      assert (D : forall s, forallb (fun c => negb (beqb c x0a)) s = true -> noLF s) by apply noLF_dec.
      repeat (apply Forall_app; split).
      + constructor; [apply noLF_app; [apply D; reflexivity|exact Np]|]. constructor; [apply D; reflexivity|]. constructor; [apply D; reflexivity|constructor].
      + apply Forall_map. eapply Forall_impl; [|exact Nl]. intros e H. unfold constOf. apply (noLF_app [x09]); [apply D; reflexivity|]. apply noLF_app; [exact Nx|]. apply noLF_app; [exact H|].
        apply noLF_app; [apply D; reflexivity|]. apply line_noLF, quoteString_line. exact Pr.
      + constructor; [apply D; reflexivity|constructor].
      + induction Nl as [|e l H _ IH]; [constructor|]. cbn [map List.concat]. apply Forall_app. split; [|exact IH]. unfold funcOf.
        destruct (HasPrefix (fst e) (str "Is")).
        * constructor; [apply D; reflexivity|]. constructor; [repeat apply noLF_app; try exact H; apply D; reflexivity|].
          constructor; [apply (noLF_app [x09]); [apply D; reflexivity|]; repeat apply noLF_app; try exact H; try exact Nx; apply D; reflexivity|]. constructor; [apply D; reflexivity|constructor].
        * constructor; [apply D; reflexivity|]. constructor; [repeat apply noLF_app; try exact H; apply D; reflexivity|].
          constructor; [apply (noLF_app [x09]); [apply D; reflexivity|]; repeat apply noLF_app; try exact H; try exact Nx; apply D; reflexivity|]. constructor; [apply D; reflexivity|constructor].
      + constructor; [apply D; reflexivity|constructor].
  Qed.
End Lit.

Lemma C73_file_lem U isPrint pkg file prefix create args : prints isPrint -> isPrint 65279 = false -> ~ In x0a pkg -> ~ In x0a prefix -> Forall (fun a => ~ nameless a) args ->
  (forall a n t, In a args -> asks U a n t -> ~ In x0a n) -> file = [] \/ create = true ->
  exists l text, tables U args l /\ table_lines pkg prefix l (lines text) /\
    bytemaper isPrint U pkg file prefix create args = Some (match file with [] => mkOut true None text | _ => mkOut true (Some text) [] end).
Proof.
  intros Pr Bom Np Nx Na Nn Fc. destruct (run_spec U args) as [(X & _)|(_ & l & E & T)].
  - exfalso. apply Exists_exists in X as (a & I & N). rewrite Forall_forall in Na. exact (Na a I N).
  - exists l, (tableFile isPrint pkg prefix l). split; [exact T|]. split.
    + apply file_lines; auto. apply Forall_forall. intros [n t] I. destruct T as [_ T]. apply T in I as (pre & a & post & -> & A & _). apply (Nn a n t); [apply in_or_app; right; left; reflexivity|exact A].
    + unfold bytemaper. rewrite E. destruct file as [|c file]; [reflexivity|]. destruct Fc as [Fc| ->]; [discriminate|reflexivity].
Qed.
Lemma C73_fatal_lem U isPrint pkg file prefix create args : exists r, bytemaper isPrint U pkg file prefix create args = Some r /\
  (oOk r = false <-> (file <> [] /\ create = false) \/ Exists nameless args) /\ (oOk r = false -> oStdout r = [] /\ (oFile r = if match file with [] => false | _ => create end then Some [] else None)).
Proof.
  unfold bytemaper. destruct (run_spec U args) as [(X & ->)|(X & l & -> & _)].
  - destruct file as [|c file]; [|destruct create]; cbn [andb negb]; eexists; (split; [reflexivity|]); cbn [oOk oStdout oFile]; split; auto; split; auto.
  - assert (N : ~ Exists nameless args) by (apply Forall_Exists_neg; exact X).
    destruct file as [|c file]; [|destruct create]; cbn [andb negb]; eexists; (split; [reflexivity|]); cbn [oOk oStdout oFile]; split; auto; try discriminate; split; auto; try discriminate.
    + intros [[H _]|H]; [congruence|contradiction].
    + intros [[_ H]|H]; [discriminate|contradiction].
    + left. split; [discriminate|reflexivity].
Qed.

Lemma single_not c v : ~ given [c] v.
Proof. intros [L _]. cbn in L. lia. Qed.
Lemma C73_single_lem U n c : ~ In x3a n -> ~ In n kinds -> n <> [] -> exists t, asks U (n ++ [x3a; c]) n t /\ forall d, tbl t d = x00.
Proof. intros A B C. exists (repeat x00 256). split; [apply as_bad; auto; apply single_not|]. rewrite zero_mask. intro d. apply (mask_entry (isOneOf [])). Qed.
Lemma C73_single_refuted_lem : exists n c, ident n /\ ~ In n kinds /\ forall U t, asks U (n ++ [x3a; c]) n t -> tbl t c <> x01.
Proof.
  exists (str "isComma"), x2c. split; [|split].
  - split; [right; left; split; vm_compute; discriminate|]. repeat (apply Forall_cons; [left; first [solve [right; left; split; vm_compute; discriminate]|left; split; vm_compute; discriminate]|]); apply Forall_nil.
  - intro I. cbn in I. intuition discriminate.
  - intros U t A. destruct (C73_single_lem U (str "isComma") x2c) as (t' & A' & Z).
    + cbn. intuition discriminate.
    + intro I. cbn in I. intuition discriminate.
    + discriminate.
    + apply asks_one in A. apply asks_one in A'. assert (t = t') as -> by congruence. rewrite Z. discriminate.
Qed.
Lemma C73_lost_lem : exists U isPrint args r, bytemaper isPrint U (str "p") (str "bytemaps.go") (str "bytemap") true args = Some r /\ oOk r = false /\ oFile r = Some [].
Proof.
  exists (mkUni (fun _ => false) (fun _ => false) (fun _ => false) (fun _ => false) (fun _ => false) (fun _ => 0%Z) (fun _ => 0%Z) (fun _ => 0%Z)), (fun _ => false), [[]].
  eexists. split; [vm_compute; reflexivity|]. split; reflexivity.
Qed.
Definition exU : uni := mkUni (fun r => r <? 32) (fun r => r =? 33) (fun r => (48 <=? r) && (r <=? 57)) (fun r => r =? 32) (fun r => (32 <=? r) && (r <? 127))
  (fun r => if (65 <=? r) && (r <=? 90) then Z.of_N (r + 32) else Z.of_N r) Z.of_N Z.of_N.
Lemma C73_example_lem : (let p := uIsPrint exU in prints p /\ p 65279 = false) /\ Forall (fun a => ~ nameless a) (map str ["IsSep:,]\t"; "FromHex:Hex"; "ToLower"]%string) /\
  (exists t, asks exU (str "IsSep:,]\t") (str "IsSep") t /\ tbl t x09 = x01 /\ tbl t x2c = x01 /\ tbl t x74 = x00) /\ (exists t, asks exU (str "FromHex:Hex") (str "Hex") t /\ tbl t x41 = x0a) /\
  (exists t, asks exU (str "ToLower") (str "ToLower") t /\ tbl t x41 = x61 /\ tbl t xc4 = x00) /\
  exists r, bytemaper (uIsPrint exU) exU (str "main") [] (str "bytemap") true (map str ["IsSep:,]\t"; "FromHex:Hex"; "ToLower"]%string) = Some r /\ oOk r = true /\
    firstn 5 (map (firstn 44) (lines (oStdout r))) = [str "// Code generated by bytemaper; DO NOT EDIT."; str "package main"; []; str "const ("; x09 :: str "bytemapHex = ""\xff\xff\xff\xff\xff\xff\xff\"] /\
    skipn 8 (lines (oStdout r)) = [[]; str "func Hex(c byte) byte {"; x09 :: str "return bytemapHex[c]"; str "}"; []; str "func IsSep(c byte) bool {"; x09 :: str "return bytemapIsSep[c] == 1"; str "}";
      []; str "func ToLower(c byte) byte {"; x09 :: str "return bytemapToLower[c]"; str "}"; []].
Proof.
  split; [split; [|reflexivity]; intros r H [C|C]; cbn [uIsPrint exU] in H; apply andb_true_iff in H as [H1 H2]; apply N.leb_le in H1; apply N.ltb_lt in H2; lia|].
  split; [repeat constructor; intros [H|(s & H)]; discriminate|].
  split; [eexists; split; [apply asks_iff; vm_compute; reflexivity|]; repeat split; reflexivity|].
  split; [eexists; split; [apply asks_iff; vm_compute; reflexivity|]; reflexivity|].
  split; [eexists; split; [apply asks_iff; vm_compute; reflexivity|]; split; reflexivity|].
  eexists. split; [vm_compute; reflexivity|]. split; [reflexivity|]. split; vm_compute; reflexivity.
Qed.
