(* Lemmas for C46: merge computes a selection of the offered fields. *)
From Verif Require Import Bytes Types JsonSpec Parser Doc DocSpec Float Num OptSpec Options OptThms Codec CodecSpec.

Scheme offers_mind := Induction for offers Sort Prop with offers_from_mind := Induction for offers_from Sort Prop.
Combined Scheme offers_mutind from offers_mind, offers_from_mind.

Definition add (cs : list codec) (c : codec) : list codec :=
  match Get cs (ckey c) with
  | Some ff => if (cmpIndex (cindex ff) (cindex c) =? -1)%Z then cs ++ [c] else cs
  | None => cs ++ [c]
  end.
Lemma parseField_total o n tag fd : exists r, parseField o n tag fd = Some r.
Proof.
  assert (P : exists r, parseTag tag fd = Some r).
  { unfold parseTag. destruct fd as [v|]; [|eauto]. destruct (split_once v) as (p & ps & F & ->). inversion F as [|? ? Hp Fp]; subst. rewrite join_rest.
    destruct ps as [|q ps]; [cbn [rest map concat]; rewrite app_nil_r, (index_none p Hp); eauto|].
    change (rest (q :: ps)) with (x2c :: q ++ rest ps). rewrite (index_at p _ Hp). destruct (length p <? length tag); [|eauto].
    rewrite skipn_app, Nat.sub_diag, skipn_all. cbn [skipn app]. change (x2c :: q ++ rest ps) with (rest (q :: ps)). unfold parseHints. rewrite (hints_loop _ Fp) by lia. eauto. }
  destruct P as ([[? ?] ?] & P). unfold parseField. rewrite P. eauto.
Qed.
Lemma isStruct_iff E t : isStruct E t = true <-> exists fs, kindOf E t = Some (KStruct fs).
Proof.
  unfold isStruct, kindOf. destruct (typeOf E t) as [T|]; cbn; [|split; [discriminate|intros [fs F]; discriminate]].
  destruct (tkind T); split; try discriminate; try (intros [fs0 F]; congruence); eauto.
Qed.
Lemma isStruct_not E t : isStruct E t = false -> forall fs, kindOf E t <> Some (KStruct fs).
Proof. intros H fs K. assert (isStruct E t = true) by (apply isStruct_iff; eauto). congruence. Qed.

(* what one round of merge does with a field *)
Inductive round (E : env) (O : opts) (path : list Z) (i : nat) (f : sfield) : Type :=
| r_hidden : hidden O f -> round E O path i f
| r_field key h idx : (forall fs l, offers_from E O path (S i) fs l -> offers_from E O path i (f :: fs) (mkC key idx (ftype f) h :: l)) ->
    (forall key h u gs, parseField (oOmitEmpty O) (fname f) (ftag f) (flookup f (oTag O)) = Some (key, h, false) -> fanon f = true ->
      ftype f = u \/ kindOf E (ftype f) = Some (KPtr u) -> kindOf E u <> Some (KStruct gs)) -> round E O path i f
| r_embed u idx : (forall fs l' l, offers E O u idx l' -> offers_from E O path (S i) fs l -> offers_from E O path i (f :: fs) (l' ++ l)) ->
    isStruct E u = true -> (forall t fs, kindOf E t = Some (KStruct fs) -> In f fs -> embeds E O t u) ->
    (ftype f = u /\ idx = path ++ [Z.of_nat i] \/ kindOf E (ftype f) = Some (KPtr u) /\ idx = path ++ [Z.of_nat i; -1]%Z) -> round E O path i f.
Lemma mergeFields_cons rec E O path i f fs c : exists r : round E O path i f,
  mergeFields rec E O path i (f :: fs) c =
    match r with
    | r_hidden _ _ _ _ _ _ => mergeFields rec E O path (S i) fs c
    | r_field _ _ _ _ _ key h idx _ _ => mergeFields rec E O path (S i) fs (add c (mkC key idx (ftype f) h))
    | r_embed _ _ _ _ _ u idx _ _ _ _ => let! c := rec u idx c in mergeFields rec E O path (S i) fs c
    end.
Proof.
  cbn [mergeFields]. destruct (fcanset f) eqn:Cs; cbn [negb]; [|unshelve eexists; [apply r_hidden; left; exact Cs|reflexivity]].
  destruct (parseField_total (oOmitEmpty O) (fname f) (ftag f) (flookup f (oTag O))) as ([[key h] tagged] & P). rewrite P.
  destruct (bseqb key (str "-")) eqn:Ek.
  { apply bseqb_true in Ek. subst. unshelve eexists; [apply r_hidden; right; exists h, tagged; exact P|reflexivity]. }
  assert (Nk : key <> str "-") by (intros ->; rewrite bseqb_refl in Ek; discriminate). clear Ek.
  assert (add_eq : forall idx, match Get c key with
     | Some ff => if (cmpIndex (cindex ff) idx =? -1)%Z then mergeFields rec E O path (S i) fs (c ++ [mkC key idx (ftype f) h]) else mergeFields rec E O path (S i) fs c
     | None => mergeFields rec E O path (S i) fs (c ++ [mkC key idx (ftype f) h]) end = mergeFields rec E O path (S i) fs (add c (mkC key idx (ftype f) h))).
  { intro idx. unfold add. cbn [ckey cindex]. destruct (Get c key) as [ff|]; [destruct (_ =? _)%Z|]; reflexivity. }
  destruct (negb tagged && fanon f) eqn:Em.
  - apply andb_true_iff in Em as [Et Ea]. apply negb_true_iff in Et. subst tagged. cbn [andb].
    unfold embedded. destruct (typeOf E (ftype f)) as [T|] eqn:Ty.
    + destruct (tkind T) eqn:Kt; match goal with K : tkind T = KPtr ?e |- _ => idtac
        | _ => destruct (isStruct E (ftype f)) eqn:S;
            [unshelve eexists; [apply (r_embed E O path i f (ftype f) (path ++ [Z.of_nat i])); [|exact S| |left; split; reflexivity]|reflexivity];
              apply isStruct_iff in S as [gs S]; [intros; eapply off_embed; eassumption|intros t9 fs9 K0 I0; exists fs9, f, key, h; do 6 (split; [assumption|]); split; [left; reflexivity|eauto]]
            |rewrite add_eq; unshelve eexists; [apply (r_field E O path i f key h (path ++ [Z.of_nat i])); [|intros key9 h9 u9 gs9 _ _ [<-|Q9]; [exact (isStruct_not _ _ S gs9)|exfalso; unfold kindOf in Q9; rewrite Ty in Q9; cbn in Q9; congruence]]|reflexivity];
              intros fs9 l0 H0; eapply off_named with (2 := P); try eassumption; [exact (isStruct_not _ _ S)| |];
              [intros e1 gs1 K0|]; unfold kindOf in *; rewrite Ty in *; cbn in *; [congruence|rewrite Kt; reflexivity]] end.
      destruct (isStruct E e) eqn:S.
      * unshelve eexists; [apply (r_embed E O path i f e (path ++ [Z.of_nat i; -1]%Z)); [|exact S| |right; unfold kindOf; rewrite Ty; cbn; rewrite Kt; split; reflexivity]|].
        -- apply isStruct_iff in S as [gs S]. intros. eapply off_embed_ptr; try eassumption. unfold kindOf. rewrite Ty. cbn. rewrite Kt. reflexivity.
        -- apply isStruct_iff in S as [gs S]. intros t0 fs0 K0 I0. exists fs0, f, key, h. do 6 (split; [assumption|]). split; [right; unfold kindOf; rewrite Ty; cbn; rewrite Kt; reflexivity|eauto].
        -- cbn -[mergeFields]. rewrite <- app_assoc. reflexivity.
      * cbn -[mergeFields Get]. rewrite add_eq. unshelve eexists; [apply (r_field E O path i f key h ((path ++ [Z.of_nat i]) ++ [-1]%Z)); [|intros key9 h9 u9 gs9 _ _ [<-|Q9]; [unfold kindOf; rewrite Ty; cbn; congruence|unfold kindOf in Q9; rewrite Ty in Q9; cbn in Q9; rewrite Kt in Q9; injection Q9 as <-; exact (isStruct_not _ _ S gs9)]]|reflexivity].
        intros fs0 l0 H0. eapply off_named with (2 := P); try eassumption; unfold kindOf in *; rewrite Ty in *; cbn in *; rewrite Kt in *.
        -- intros gs K0. discriminate.
        -- intros e0 gs K0. injection K0 as <-. exact (isStruct_not _ _ S gs).
        -- rewrite <- app_assoc. reflexivity.
    + assert (S : isStruct E (ftype f) = false) by (unfold isStruct; rewrite Ty; reflexivity). rewrite S, add_eq.
      unshelve eexists; [apply (r_field E O path i f key h (path ++ [Z.of_nat i])); [|intros key9 h9 u9 gs9 _ _ [<-|Q9]; [unfold kindOf; rewrite Ty; discriminate|unfold kindOf in Q9; rewrite Ty in Q9; discriminate]]|reflexivity].
      intros fs0 l0 H0; eapply off_named with (2 := P); try eassumption; unfold kindOf; rewrite Ty; cbn; intros; try discriminate. reflexivity.
  - cbn [andb]. rewrite add_eq. unshelve eexists; [apply (r_field E O path i f key h (path ++ [Z.of_nat i])); [|intros key9 h9 u9 gs9 P9 A9; exfalso; rewrite P in P9; injection P9 as _ _ ->; rewrite A9 in Em; discriminate]|reflexivity].
    intros fs0 l0 H0. eapply off_field; try eassumption. destruct tagged; [left; reflexivity|]. right. destruct (fanon f); auto.
Qed.

Lemma mergeFields_offers rec E O : (forall t path c c', isStruct E t = true -> rec t path c = Ok c' -> exists l, offers E O t path l /\ c' = fold_left add l c) ->
  forall fs path i c c', mergeFields rec E O path i fs c = Ok c' -> exists l, offers_from E O path i fs l /\ c' = fold_left add l c.
Proof.
  intro R. induction fs as [|f fs IH]; intros path i c c' H; [injection H as <-; exists []; split; [constructor|reflexivity]|].
  destruct (mergeFields_cons rec E O path i f fs c) as [r Er]. rewrite Er in H. clear Er. destruct r as [Hh|key h idx Of _|u idx Of Su _ _].
  - destruct (IH _ _ _ _ H) as (l & Ol & ->). exists l. split; auto. apply off_hidden; auto.
  - destruct (IH _ _ _ _ H) as (l & Ol & ->). eexists. split; [apply Of; exact Ol|reflexivity].
  - destruct (rec u idx c) as [c1| |] eqn:E1; try discriminate. cbn in H. destruct (R _ _ _ _ Su E1) as (l1 & O1 & ->). destruct (IH _ _ _ _ H) as (l & Ol & ->).
    exists (l1 ++ l). rewrite fold_left_app. split; auto.
Qed.
Lemma merge_offers E O : forall fuel t path c c', merge fuel E O t path c = Ok c' -> exists l, offers E O t path l /\ c' = fold_left add l c.
Proof.
  induction fuel as [|k IH]; [discriminate|]. intros t path c c' H. cbn [merge] in H. destruct (typeOf E t) as [T|] eqn:Ty; [|discriminate].
  destruct (tkind T) eqn:K; try discriminate. apply mergeFields_offers in H; [|intros; apply IH; assumption]. destruct H as (l & Ol & ->).
  exists l. split; auto. econstructor; [|exact Ol]. unfold kindOf. rewrite Ty. cbn. rewrite K. reflexivity.
Qed.

(* never a panic *)
Lemma merge_nopanic E O : forall fuel t path c, isStruct E t = true -> merge fuel E O t path c <> Panic.
Proof.
  induction fuel as [|k IH]; [discriminate|]. intros t path c S. cbn [merge]. apply isStruct_iff in S as [fs S]. unfold kindOf in S. destruct (typeOf E t) as [T|]; [|discriminate].
  injection S as ->. revert path c. generalize 0. induction fs as [|f fs IHf]; intros i path c; [discriminate|].
  destruct (mergeFields_cons (merge k E O) E O path i f fs c) as [r ->]. destruct r as [Hh|key h idx Of _|u idx Of Su _ _]; auto.
  specialize (IH u idx c Su). destruct (merge k E O u idx c); [apply IHf|congruence|discriminate].
Qed.

(* ---- what fold_left add keeps ---- *)
Lemma Get_key cs key c : Get cs key = Some c -> ckey c = key.
Proof. induction cs as [|d cs IH]; [discriminate|]. cbn. destruct (bseqb (ckey d) key) eqn:E; auto. intro H. injection H as <-. apply bseqb_true. exact E. Qed.
Lemma Get_hd cs key : Get cs key = hd_error (with_key key cs).
Proof. induction cs as [|d cs IH]; [reflexivity|]. unfold with_key in *. cbn. destruct (bseqb (ckey d) key); auto. Qed.
Lemma with_key_app key a b : with_key key (a ++ b) = with_key key a ++ with_key key b.
Proof. unfold with_key. rewrite filter_app. reflexivity. Qed.
Definition wins (ff c : codec) : bool := (cmpIndex (cindex ff) (cindex c) =? -1)%Z.
Lemma with_key_add key cs c : with_key key (add cs c) = with_key key cs ++
  (if bseqb (ckey c) key then match with_key key cs with [] => [c] | ff :: _ => if wins ff c then [c] else [] end else []).
Proof.
  unfold add, wins. destruct (bseqb (ckey c) key) eqn:E.
  - apply bseqb_true in E. subst key. rewrite Get_hd. destruct (with_key (ckey c) cs) as [|ff r] eqn:W; cbn [hd_error].
    + rewrite with_key_app, W. unfold with_key. cbn. rewrite bseqb_refl. reflexivity.
    + destruct (_ =? _)%Z; [|rewrite W, app_nil_r; reflexivity]. rewrite with_key_app, W. unfold with_key at 1. cbn. rewrite bseqb_refl. reflexivity.
  - rewrite app_nil_r. destruct (Get cs (ckey c)) as [ff|]; [destruct (_ =? _)%Z|]; auto; rewrite with_key_app; unfold with_key at 2; cbn; rewrite E, app_nil_r; reflexivity.
Qed.
Lemma with_key_fold key : forall l cs, with_key key (fold_left add l cs) =
  match with_key key cs with
  | ff :: r => (ff :: r) ++ filter (wins ff) (with_key key l)
  | [] => match with_key key l with [] => [] | ff :: r => ff :: filter (wins ff) r end
  end.
Proof.
  induction l as [|c l IH]; intro cs; cbn [fold_left].
  - change (with_key key []) with (@nil codec). destruct (with_key key cs); cbn; rewrite ?app_nil_r; reflexivity.
  - rewrite IH, with_key_add. assert (W : with_key key (c :: l) = if bseqb (ckey c) key then c :: with_key key l else with_key key l) by (unfold with_key; cbn; reflexivity). rewrite W. clear W.
    destruct (with_key key cs) as [|ff r]; destruct (bseqb (ckey c) key); cbn [app filter]; auto.
    + destruct (wins ff c); cbn [app]; [rewrite <- app_assoc; reflexivity|rewrite app_nil_r; reflexivity].
    + rewrite app_nil_r. reflexivity.
Qed.
Lemma fold_subseq : forall l cs, exists l', fold_left add l cs = cs ++ l' /\ subseq l' l.
Proof.
  induction l as [|c l IH]; intro cs; [exists []; rewrite app_nil_r; split; [reflexivity|constructor]|]. cbn [fold_left]. destruct (IH (add cs c)) as (l' & -> & S). unfold add.
  assert (K : exists l0, (cs ++ [c]) ++ l' = cs ++ l0 /\ subseq l0 (c :: l)) by (exists (c :: l'); rewrite <- app_assoc; split; [reflexivity|constructor; exact S]).
  assert (D : exists l0, cs ++ l' = cs ++ l0 /\ subseq l0 (c :: l)) by (exists l'; split; [reflexivity|constructor; exact S]).
  destruct (Get cs (ckey c)); [destruct (_ =? _)%Z|]; auto.
Qed.

(* ---- the paths are in order ---- *)
Definition before (p q : list Z) : Prop := exists a x y r s, p = a ++ x :: r /\ q = a ++ y :: s /\ (x < y)%Z.
Lemma before_cmp p q : before p q -> length p = length q -> cmpSame p q = 1%Z.
Proof.
  intros (a & x & y & r & s & -> & -> & L) _. induction a as [|z a IH]; cbn; [|rewrite Z.ltb_irrefl; exact IH].
  destruct (Z.ltb_spec y x); [lia|]. destruct (Z.ltb_spec x y); [reflexivity|lia].
Qed.
Lemma before_wins c d : before (cindex c) (cindex d) -> length (cindex c) <= length (cindex d) -> wins c d = false.
Proof.
  intros B L. unfold wins, cmpIndex. destruct (Nat.ltb_spec (length (cindex d)) (length (cindex c))); [lia|].
  destruct (Nat.eqb_spec (length (cindex c)) (length (cindex d))) as [e|e]; [|reflexivity]. rewrite (before_cmp _ _ B e). reflexivity.
Qed.
Lemma FOP_app {A} (R : A -> A -> Prop) a b : ForallOrdPairs R a -> ForallOrdPairs R b -> (forall x y, In x a -> In y b -> R x y) -> ForallOrdPairs R (a ++ b).
Proof.
  induction 1 as [|x a F Fa IH]; intros Fb H; [exact Fb|]. cbn. constructor.
  - apply Forall_app. split; auto. apply Forall_forall. intros y Iy. apply H; [left; reflexivity|exact Iy].
  - apply IH; auto. intros. apply H; [right|]; assumption.
Qed.
Lemma offers_paths E O :
  (forall t path l, offers E O t path l -> ForallOrdPairs before (map cindex l) /\ (forall c, In c l -> exists x r, cindex c = path ++ x :: r)) /\
  (forall path i fs l, offers_from E O path i fs l -> ForallOrdPairs before (map cindex l) /\ (forall c, In c l -> exists x r, cindex c = path ++ x :: r /\ (Z.of_nat i <= x)%Z)).
Proof.
  apply offers_mutind.
  - intros t path fs l K F [IH1 IH2]. split; auto. intros c Ic. destruct (IH2 c Ic) as (x & r & E1 & _). eauto.
  - intros. split; [constructor|intros c []].
  - intros path i f fs l H F [IH1 IH2]. split; auto. intros c Ic. destruct (IH2 c Ic) as (x & r & E1 & L). exists x, r. split; auto. lia.
  - intros path i f fs l key h tagged _ _ _ _ F [IH1 IH2]. split.
    + cbn. constructor; auto. apply Forall_forall. intros p Ip. apply in_map_iff in Ip as (c & <- & Ic). destruct (IH2 c Ic) as (x & r & E1 & L).
      exists path, (Z.of_nat i), x, [], r. repeat split; auto. lia.
    + intros c [<-|Ic]; [exists (Z.of_nat i), []; split; [reflexivity|lia]|]. destruct (IH2 c Ic) as (x & r & E1 & L). exists x, r. split; auto. lia.
  - intros path i f fs l key h idx _ _ _ _ _ _ Hi F [IH1 IH2]. assert (Hx : exists r, idx = path ++ Z.of_nat i :: r) by (destruct (kindOf E (ftype f)) as [[]|]; subst; eauto). destruct Hx as [r0 Hx].
    clear Hi. subst idx. split.
    + cbn. constructor; auto. apply Forall_forall. intros p Ip. apply in_map_iff in Ip as (c & <- & Ic). destruct (IH2 c Ic) as (x & r & E1 & L).
      exists path, (Z.of_nat i), x, r0, r. repeat split; auto. lia.
    + intros c [<-|Ic]; [exists (Z.of_nat i), r0; split; [reflexivity|lia]|]. destruct (IH2 c Ic) as (x & r & E1 & L). exists x, r. split; auto. lia.
  - intros path i f fs l key h gs l' _ _ _ _ _ _ [IH1 IH2] F [IH3 IH4]. split.
    + rewrite map_app. apply FOP_app; auto. intros p q Ip Iq. apply in_map_iff in Ip as (c & <- & Ic). apply in_map_iff in Iq as (d & <- & Id).
      destruct (IH2 c Ic) as (x & r & E1). destruct (IH4 d Id) as (y & s & E2 & L). exists path, (Z.of_nat i), y, (x :: r), s. rewrite <- app_assoc in E1. repeat split; auto. lia.
    + intros c Ic. apply in_app_iff in Ic as [Ic|Ic].
      * destruct (IH2 c Ic) as (x & r & E1). rewrite <- app_assoc in E1. exists (Z.of_nat i), (x :: r). split; [exact E1|lia].
      * destruct (IH4 c Ic) as (x & r & E1 & L). exists x, r. split; auto. lia.
  - intros path i f fs l key h e gs l' _ _ _ _ _ _ _ [IH1 IH2] F [IH3 IH4]. split.
    + rewrite map_app. apply FOP_app; auto. intros p q Ip Iq. apply in_map_iff in Ip as (c & <- & Ic). apply in_map_iff in Iq as (d & <- & Id).
      destruct (IH2 c Ic) as (x & r & E1). destruct (IH4 d Id) as (y & s & E2 & L). exists path, (Z.of_nat i), y, (-1 :: x :: r)%Z, s. rewrite <- app_assoc in E1. repeat split; auto. lia.
    + intros c Ic. apply in_app_iff in Ic as [Ic|Ic].
      * destruct (IH2 c Ic) as (x & r & E1). rewrite <- app_assoc in E1. exists (Z.of_nat i), (-1 :: x :: r)%Z. split; [exact E1|lia].
      * destruct (IH4 c Ic) as (x & r & E1 & L). exists x, r. split; auto. lia.
Qed.
Lemma FOP_filter {A} (R : A -> A -> Prop) f l : ForallOrdPairs R l -> ForallOrdPairs R (filter f l).
Proof.
  induction 1 as [|x l F Fl IH]; [constructor|]. cbn. destruct (f x); auto. constructor; auto.
  rewrite Forall_forall in *. intros y Iy. apply filter_In in Iy as [Iy _]. auto.
Qed.
Lemma FOP_map {A B} (f : A -> B) (R : B -> B -> Prop) l : ForallOrdPairs R (map f l) -> ForallOrdPairs (fun x y => R (f x) (f y)) l.
Proof. induction l as [|x l IH]; cbn; intro H; [constructor|]. inversion H as [|? ? F Fl]; subst. constructor; auto. exact (proj1 (Forall_map _ _ _) F). Qed.

Lemma structFields_offers E O t cs : structFields E O t = Ok cs -> exists l, offers E O t [] l /\ cs = fold_left add l [].
Proof. intro H. exact (merge_offers E O _ _ _ _ _ H). Qed.

Lemma offers_det E O :
  (forall t path l, offers E O t path l -> forall l', offers E O t path l' -> l = l') /\
  (forall path i fs l, offers_from E O path i fs l -> forall l', offers_from E O path i fs l' -> l = l').
Proof.
  apply offers_mutind.
  - intros t path fs l K F IH l' H. inversion H; subst. apply IH. congruence.
  - intros path i l' H. inversion H. reflexivity.
  - intros path i f fs l Hh F IH l' H. inversion H; subst; try (apply IH; assumption); exfalso; destruct Hh as [Hh|(? & ? & Hh)]; congruence.
  - intros path i f fs l key h tagged H1 H2 H3 H4 F IH l' H. inversion H; subst.
    + exfalso. match goal with Hh : hidden _ _ |- _ => destruct Hh as [Hh|(? & ? & Hh)]; congruence end.
    + f_equal; [congruence|apply IH; assumption].
    + exfalso. destruct H4; congruence.
    + exfalso. destruct H4; congruence.
    + exfalso. destruct H4; congruence.
  - intros path i f fs l key h idx H1 H2 H3 H4 H5 H6 H7 F IH l' H. inversion H; subst.
    + exfalso. match goal with Hh : hidden _ _ |- _ => destruct Hh as [Hh|(? & ? & Hh)]; congruence end.
    + exfalso. match goal with Hh : _ \/ fanon f = false |- _ => destruct Hh; congruence end.
    + f_equal; [congruence|apply IH; assumption].
    + exfalso. eapply H5; eassumption.
    + exfalso. eapply H6; eassumption.
  - intros path i f fs l key h gs l1 H1 H2 H3 H4 H5 H6 IH1 F IH l' H. inversion H; subst.
    + exfalso. match goal with Hh : hidden _ _ |- _ => destruct Hh as [Hh|(? & ? & Hh)]; congruence end.
    + exfalso. match goal with Hh : _ \/ fanon f = false |- _ => destruct Hh; congruence end.
    + exfalso. match goal with Hh : forall gs, kindOf E (ftype f) <> _ |- _ => eapply Hh; eassumption end.
    + f_equal; [apply IH1|apply IH]; assumption.
    + exfalso. congruence.
  - intros path i f fs l key h e gs l1 H1 H2 H3 H4 H5 H5' H6 IH1 F IH l' H. inversion H; subst.
    + exfalso. match goal with Hh : hidden _ _ |- _ => destruct Hh as [Hh|(? & ? & Hh)]; congruence end.
    + exfalso. match goal with Hh : _ \/ fanon f = false |- _ => destruct Hh; congruence end.
    + exfalso. match goal with Hh : forall e gs, kindOf E (ftype f) = _ -> _ |- _ => eapply Hh; eassumption end.
    + exfalso. congruence.
    + f_equal; [apply IH1|apply IH]; try assumption. match goal with K : kindOf E (ftype f) = Some (KPtr ?x), L : offers E O ?x _ _ |- _ => rewrite H5 in K; injection K as <-; exact L end.
Qed.

Lemma C46_partial_lem E O t cs : structFields E O t = Ok cs -> forall l, offers E O t [] l -> subseq cs l /\
  (forall key, Get cs key = hd_error (with_key key l)) /\
  forall key, first_is_shortest l key ->
    match with_key key l with
    | [] => with_key key cs = []
    | c :: _ => with_key key cs = [c] /\ Get cs key = Some c /\ shortest_first l c
    end.
Proof.
  intros H l0 Ol0. destruct (structFields_offers _ _ _ _ H) as (l & Ol & ->). rewrite (proj1 (offers_det E O) _ _ _ Ol0 _ Ol). clear Ol0 l0.
  split; [destruct (fold_subseq l []) as (l' & -> & S); exact S|]. split.
  - intro key. rewrite Get_hd, with_key_fold. change (with_key key []) with (@nil codec). cbv iota. destruct (with_key key l); reflexivity.
  - intros key F. pose proof (with_key_fold key l []) as W. change (with_key key []) with (@nil codec) in W. cbv iota in W.
    destruct (with_key key l) as [|c r] eqn:Wl; auto. rewrite Get_hd. rewrite W.
    assert (Fr : filter (wins c) r = []).
    { specialize (F c r Wl). destruct (proj1 (offers_paths E O) _ _ _ Ol) as [P _]. apply FOP_map, (FOP_filter _ (fun c => bseqb (ckey c) key)) in P.
      change (filter (fun c : codec => bseqb (ckey c) key) l) with (with_key key l) in P. rewrite Wl in P. inversion P as [|? ? Pf _]; subst.
      rewrite Forall_forall in F, Pf. clear W Wl P. induction r as [|d r IH]; auto. cbn. rewrite (before_wins c d); [apply IH|apply Pf|apply F]; try (left; reflexivity); intros; [apply F|apply Pf]; right; assumption. }
    rewrite Fr. split; auto. split; auto. assert (Kc : ckey c = key).
    { assert (Ic : In c (with_key key l)) by (rewrite Wl; left; reflexivity). apply filter_In in Ic as [_ Ic]. apply bseqb_true. exact Ic. }
    exists [], r. rewrite Kc. split; [exact Wl|split; [constructor|exact (F c r Wl)]].
Qed.

(* ---- termination ---- *)
Inductive chain (E : env) (O : opts) : tid -> list tid -> Prop :=
| ch_nil t : chain E O t []
| ch_cons t u l : embeds E O t u -> chain E O u l -> chain E O t (u :: l).
Lemma merge_chain E O : forall fuel t path c, isStruct E t = true -> merge (S fuel) E O t path c = Diverge -> exists l, length l = fuel /\ chain E O t l.
Proof.
  induction fuel as [|k IH]; intros t path c S H; [exists []; split; [reflexivity|constructor]|].
  cbn [merge] in H. apply isStruct_iff in S as [fs S]. pose proof S as S'. unfold kindOf in S. destruct (typeOf E t) as [T|]; [|discriminate]. injection S as S. rewrite S in H.
  assert (G : forall gs i path c, incl gs fs -> mergeFields (merge (Datatypes.S k) E O) E O path i gs c = Diverge -> exists u p d, embeds E O t u /\ isStruct E u = true /\ merge (Datatypes.S k) E O u p d = Diverge).
  { clear H path c. induction gs as [|f gs IHg]; intros i path c I H; [discriminate|]. destruct (mergeFields_cons (merge (Datatypes.S k) E O) E O path i f gs c) as [r Er]. rewrite Er in H. clear Er.
    assert (Ig : incl gs fs) by (intros x Ix; apply I; right; exact Ix). destruct r as [Hh|key h idx Of _|u idx Of Su Em _]; eauto.
    destruct (merge (Datatypes.S k) E O u idx c) as [c1| |] eqn:E1; [cbn in H; eauto|discriminate|]. exists u, idx, c. split; [|split; auto]. apply (Em t fs S'). apply I. left. reflexivity. }
  destruct (G fs 0 path c (incl_refl fs) H) as (u & p & d & Eu & Su & Du). destruct (IH u p d Su Du) as (l & L & C). exists (u :: l). split; [cbn; lia|constructor; auto].
Qed.
Lemma embeds_lt E O t u : embeds E O t u -> u < length (types E).
Proof.
  intros (fs & f & key & h & _ & _ & _ & _ & _ & _ & _ & gs & K). unfold kindOf, typeOf in K. apply nth_error_Some. intro N. rewrite N in K. discriminate.
Qed.
Lemma chain_lt E O t l : chain E O t l -> Forall (fun u => u < length (types E)) l.
Proof. induction 1; constructor; auto. eapply embeds_lt; eassumption. Qed.
Lemma chain_app E O : forall a t u b, chain E O t (a ++ u :: b) -> exists v, embeds_star E O t v /\ embeds E O v u /\ chain E O u b.
Proof.
  induction a as [|x a IH]; intros t u b H; cbn in H; inversion H; subst; [exists t; split; [constructor|split; assumption]|].
  destruct (IH _ _ _ H4) as (v & S & M & C). exists v. split; [econstructor; eassumption|split; assumption].
Qed.
Lemma star_trans E O a b c : embeds_star E O a b -> embeds_star E O b c -> embeds_star E O a c.
Proof. induction 1; auto. intro. econstructor; eauto. Qed.
Lemma star_snoc E O a b c : embeds_star E O a b -> embeds E O b c -> embeds_star E O a c.
Proof. intros. eapply star_trans; [eassumption|]. econstructor; [eassumption|constructor]. Qed.
Lemma cyclic_step E O t : cyclic E O t -> exists u, embeds E O t u /\ cyclic E O u.
Proof.
  intros (u & v & S & M & R). inversion S as [x|x y z Mx Sx]; subst.
  - exists v. split; auto. exists u, v. auto.
  - exists y. split; auto. exists u, v. auto.
Qed.
Lemma cyclic_diverges E O : forall fuel t path c, cyclic E O t -> merge fuel E O t path c = Diverge.
Proof.
  induction fuel as [|k IH]; [reflexivity|]. intros t path c C. destruct (cyclic_step _ _ _ C) as (u & (fs & f & key & h & K & I & Cs & An & P & Nk & Ty & gs & Ku) & Cu).
  cbn [merge]. unfold kindOf in K. destruct (typeOf E t) as [T|]; [|discriminate]. injection K as K. rewrite K. clear K C T t. revert path c. generalize 0.
  induction fs as [|g fs IHf]; intros i path c; [destruct I|]. destruct (mergeFields_cons (merge k E O) E O path i g fs c) as [r ->].
  assert (Rest : In f fs -> forall c0, mergeFields (merge k E O) E O path (S i) fs c0 = Diverge) by (intros If c0; apply IHf; exact If).
  destruct I as [->|If].
  - destruct r as [[Hh|(h0 & g0 & Hh)]|key0 h0 idx Of Ne|v idx Of Su Em Ti].
    + congruence.
    + rewrite Hh in P. injection P as E1 _ _. congruence.
    + exfalso. exact (Ne _ _ u gs P An Ty Ku).
    + assert (v = u) as ->.
      { apply isStruct_iff in Su as [gs0 Su]. destruct Ty as [Ty|Ty], Ti as [[Ti _]|[Ti _]]; try congruence. }
      rewrite (IH u idx c Cu). reflexivity.
  - destruct r as [Hh|key0 h0 idx Of Ne|v idx Of Su Em Ti]; try (apply Rest; exact If).
    pose proof (merge_nopanic E O k v idx c Su). destruct (merge k E O v idx c); [cbn; apply Rest; exact If|congruence|reflexivity].
Qed.
Lemma dup_split (l : list nat) : ~ NoDup l -> exists a l1 l2 l3, l = l1 ++ a :: l2 ++ a :: l3.
Proof.
  induction l as [|x l IH]; intro N; [destruct N; constructor|]. destruct (in_dec Nat.eq_dec x l) as [I|I].
  - apply in_split in I as (l2 & l3 & ->). exists x, [], l2, l3. reflexivity.
  - destruct IH as (a & l1 & l2 & l3 & ->); [intro K; apply N; constructor; assumption|]. exists a, (x :: l1), l2, l3. reflexivity.
Qed.
Lemma structFields_total_lem E O t : isStruct E t = true -> (structFields E O t = Diverge <-> cyclic E O t) /\ structFields E O t <> Panic.
Proof.
  intro S. split; [|apply merge_nopanic; exact S]. split; [|apply cyclic_diverges]. intro H. apply merge_chain in H; [|exact S]. destruct H as (l & L & C).
  assert (Lt : t < length (types E)).
  { apply isStruct_iff in S as [gs K]. unfold kindOf, typeOf in K. apply nth_error_Some. intro N. rewrite N in K. discriminate. }
  assert (D : ~ NoDup (t :: l)).
  { intro N. assert (I : incl (t :: l) (seq 0 (length (types E)))).
    { intros x [<-|Ix]; apply in_seq; [lia|]. pose proof (chain_lt _ _ _ _ C) as F. rewrite Forall_forall in F. specialize (F x Ix). lia. }
    pose proof (NoDup_incl_length N I) as Q. rewrite seq_length in Q. cbn [length] in Q. lia. }
  apply dup_split in D. destruct D as (a & l1 & l2 & l3 & D).
  destruct l1 as [|x l1]; cbn in D; injection D as -> ->.
  - destruct (chain_app _ _ _ _ _ _ C) as (v & S1 & M & _). inversion S1 as [y|y z w M1 S2]; subst.
    + do 2 eexists. split; [constructor|split; [exact M|constructor]].
    + do 2 eexists. split; [constructor|split; [exact M1|eapply star_snoc; eassumption]].
  - destruct (chain_app _ _ _ _ _ _ C) as (v & S1 & M & C1). destruct (chain_app _ _ _ _ _ _ C1) as (v2 & S2 & M2 & _). inversion S2 as [y|y z w M1 S3]; subst.
    + do 2 eexists. split; [eapply star_snoc; eassumption|split; [exact M2|constructor]].
    + do 2 eexists. split; [eapply star_snoc; eassumption|split; [exact M1|eapply star_snoc; eassumption]].
Qed.
