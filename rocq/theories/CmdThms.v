(* Lemmas for C71. *)
From Verif Require Import Bytes JsonSpec Codec Gen GenSpec GenFields GenFile GenFileSpec GenFileThms CmdOpts CmdSpec.
Local Open Scope nat_scope.

Section Flags.
  Variables snake lower lowerCamel camel : bytes -> bytes.
  Variable compile : bytes -> Datatypes.option (bytes -> bool).
  Notation gen_of := (commandGen snake lower lowerCamel camel compile).

  Lemma C71_fatal_lem F : gen_of F = None <-> ofMatch F <> str ".*" /\ compile (ofMatch F) = None.
  Proof.
    unfold commandGen, commandOptions. destruct (bseqb (ofMatch F) (str ".*")) eqn:E; cbn [negb].
    - apply bseqb_true in E. split; [discriminate|]. intros (N & _). destruct (N E).
    - apply bseqb_false in E. destruct (compile (ofMatch F)); split; try discriminate; auto. intros (_ & X). discriminate.
  Qed.
  (* the options, whatever the pattern is *)
  Lemma gen_fields F o : gen_of F = Some o ->
    otag o = ofKey F /\ oexported o = ofExported F /\ otagged o = ofTagged F /\ oforce o = ofForce F /\ oappend o = [] /\ ounmarshal o = [] /\ oomiter o = None /\
    oname o = (if bseqb (ofCase F) (str "none") then None else fieldNamer snake lower lowerCamel camel (ofCase F)) /\
    (ofMatch F = str ".*" /\ omatch o = None \/ ofMatch F <> str ".*" /\ exists m, compile (ofMatch F) = Some m /\ omatch o = Some m).
  Proof.
    unfold commandGen, commandOptions. destruct F as [k tg ex fo ma ca]. cbn [ofKey ofTagged ofExported ofForce ofMatch ofCase].
    destruct (bseqb ma (str ".*")) eqn:E; cbn [negb].
    - apply bseqb_true in E. injection 1 as <-. unfold apply.
      destruct fo, ex, tg, (bseqb ca (str "none")); cbn [negb app fold_left]; repeat split; left; auto.
    - apply bseqb_false in E. destruct (compile ma) as [m|]; [|discriminate]. injection 1 as <-. unfold apply.
      destruct fo, ex, tg, (bseqb ca (str "none")); cbn [negb app fold_left]; repeat split; right; split; auto; exists m; auto.
  Qed.
  Lemma namer_cased mode n : cased snake lower lowerCamel camel mode n
    (match (if bseqb mode (str "none") then None else fieldNamer snake lower lowerCamel camel mode) with None => n | Some f => f n end).
  Proof.
    destruct (bseqb mode (str "none")) eqn:E.
    - apply bseqb_true in E as ->. apply ca_other. cbn. intuition discriminate.
    - unfold fieldNamer. destruct (bseqb mode (str "snake")) eqn:E1; [apply bseqb_true in E1 as ->; constructor|]. destruct (bseqb mode (str "lower")) eqn:E2; [apply bseqb_true in E2 as ->; constructor|].
      destruct (bseqb mode (str "camel")) eqn:E3; [apply bseqb_true in E3 as ->; constructor|]. destruct (bseqb mode (str "Camel")) eqn:E4; [apply bseqb_true in E4 as ->; constructor|].
      apply bseqb_false in E1, E2, E3, E4. apply ca_other. intros [X|[X|[X|[X|[]]]]]; symmetry in X; contradiction.
  Qed.
  Lemma cased_det mode n a b : cased snake lower lowerCamel camel mode n a -> cased snake lower lowerCamel camel mode n b -> a = b.
  Proof. intros A B. inversion A; subst; inversion B; subst; auto; exfalso; cbn in *; tauto. Qed.

  Lemma C71_fields_lem F o f name params : gen_of F = Some o ->
    parseVar (genOptions o) f = Some (name, params) <-> cmd_field snake lower lowerCamel camel compile F f name params.
  Proof.
    intro G. destruct (gen_fields F o G) as (Ek & Ee & Et & Ef & _ & _ & _ & En & M). rewrite C60_fields_lem.
    assert (Tag : gTag (genOptions o) = or_default (ofKey F) (str "json")) by (cbn [genOptions gTag]; unfold options_TagKey; rewrite Ek; destruct (ofKey F); reflexivity).
    assert (Ma : gMatch (genOptions o) (mname f) = true <-> (ofMatch F = str ".*" \/ exists m, compile (ofMatch F) = Some m /\ m (mname f) = true)).
    { cbn [genOptions gMatch]. destruct M as [(M1 & ->)|(M1 & m & M2 & ->)].
      - split; auto.
      - split; [intro; right; exists m; auto|]. intros [X|(m' & X & Y)]; [destruct (M1 X)|]. rewrite M2 in X. injection X as <-. exact Y. }
    assert (Na : cased snake lower lowerCamel camel (ofCase F) (mname f) (gName (genOptions o) (mname f))).
    { cbn [genOptions gName]. unfold JSONFieldName. rewrite En. apply namer_cased. }
    assert (Q : forall p n m : bytes, match p with [] => match n with [] => m | b :: l => b :: l end | _ :: _ => p end = or_default p (or_default n m)) by (intros [] [] ?; reflexivity).
    split.
    - intros [p ps N1 N2 N3 N4 N5]. rewrite Q. rewrite Tag in N4. cbn [genOptions gOnlyExported gOnlyTagged gForceOmit] in *. rewrite Ee in N3. rewrite Et in N4. rewrite Ef.
      apply Ma in N2. exact (cf_intro _ _ _ _ _ _ _ p ps _ N1 N2 N3 N4 N5 Na).
    - intros [p ps n N1 N2 N3 N4 N5 N6]. apply Ma in N2. rewrite <- (cased_det _ _ _ _ Na N6), <- Q. rewrite <- Tag in N4.
      rewrite <- Ef. change (oforce o) with (gForceOmit (genOptions o)). rewrite <- Ee in N3. rewrite <- Et in N4.
      exact (fp_intro (genOptions o) f p ps N1 N2 N3 N4 N5).
  Qed.
  Lemma C71_methods_lem F o : gen_of F = Some o -> options_AppendMethod o = str "AppendJSON" /\ options_UnmarshalMethod o = str "UnmarshalNodeJSON" /\ gOmit (genOptions o) = str "Omit".
  Proof.
    intro G. destruct (gen_fields F o G) as (_ & _ & _ & _ & E1 & E2 & E3 & _). cbn [genOptions gOmit]. unfold options_AppendMethod, options_UnmarshalMethod, OmiterName. rewrite E1, E2, E3. auto.
  Qed.
  (* each option sets what it is for and nothing else *)
  Lemma C71_options_lem o n s b : let '(tag, app, unm, omi, ex, tg, fo) := seen o in
    seen (TagKey s o) = (or_default s (str "json"), app, unm, omi, ex, tg, fo) /\ seen (AppendMethod s o) = (tag, or_default s (str "AppendJSON"), unm, omi, ex, tg, fo) /\
    seen (UnmarshalMethod s o) = (tag, app, or_default s (str "UnmarshalNodeJSON"), omi, ex, tg, fo) /\ seen (OmitMethod s o) = (tag, app, unm, or_default s (str "Omit"), ex, tg, fo) /\
    seen (OnlyExported b o) = (tag, app, unm, omi, b, tg, fo) /\ seen (OnlyTagged b o) = (tag, app, unm, omi, ex, b, fo) /\ seen (ForceOmitEmpty b o) = (tag, app, unm, omi, ex, tg, b) /\
    seen (MatchFieldName n o) = seen o /\ seen (TransformFieldCase snake lower lowerCamel camel s o) = seen o /\
    Forall (fun f : option => omatch (f o) = omatch o /\ oname (f o) = oname o) [TagKey s; AppendMethod s; UnmarshalMethod s; OmitMethod s; OnlyExported b; OnlyTagged b; ForceOmitEmpty b] /\
    omatch (TransformFieldCase snake lower lowerCamel camel s o) = omatch o /\ oname (MatchFieldName n o) = oname o /\
    (forall name, gMatch (genOptions (MatchFieldName n o)) name = match n with None => true | Some m => m name end) /\
    (forall name, cased snake lower lowerCamel camel s name (gName (genOptions (TransformFieldCase snake lower lowerCamel camel s o)) name)).
  Proof.
    unfold seen. destruct o as [tag app unm omi ex tg fo ma na]. unfold options_TagKey, options_AppendMethod, options_UnmarshalMethod, OmiterName.
    cbn [otag oappend ounmarshal oomiter oexported otagged oforce TagKey AppendMethod UnmarshalMethod OmitMethod OnlyExported OnlyTagged ForceOmitEmpty MatchFieldName TransformFieldCase].
    do 9 (split; [destruct s; reflexivity|]). split; [repeat constructor|]. split; [reflexivity|]. split; [reflexivity|]. split; [intro name; cbn; destruct n; reflexivity|].
    intro name. cbn [genOptions gName]. unfold JSONFieldName. cbn [TransformFieldCase oname].
    pose proof (namer_cased s name) as C. destruct (bseqb s (str "none")) eqn:E; auto. apply bseqb_true in E as ->. exact C.
  Qed.
End Flags.

(* ---- the package ---- *)
Lemma extFrom_none r : (forall c, In c r -> c <> x2e) -> extFrom r = None.
Proof.
  induction r as [|c r IH]; intro H; [reflexivity|]. cbn [extFrom]. rewrite IH by (intros d I; apply H; right; exact I). destruct (beqb c x2f); auto.
  destruct (beqb c x2e) eqn:E; auto. apply beqb_true in E. destruct (H c (or_introl eq_refl) E).
Qed.
Lemma extFrom_dot r t : (forall c, In c r -> c <> x2e /\ c <> x2f) -> extFrom (r ++ x2e :: t) = Some (x2e :: rev r).
Proof.
  induction r as [|c r IH]; intro H; [reflexivity|]. cbn [app extFrom]. destruct (H c (or_introl eq_refl)) as (N1 & N2).
  destruct (beqb c x2f) eqn:E1; [apply beqb_true in E1; congruence|]. destruct (beqb c x2e) eqn:E2; [apply beqb_true in E2; congruence|].
  rewrite IH by (intros d I; apply H; right; exact I). reflexivity.
Qed.
Lemma dropSlashes_not s : (forall c r, s = c :: r -> c <> x2f) -> dropSlashes s = s.
Proof. destruct s as [|c r]; auto. intro H. cbn. destruct (beqb c x2f) eqn:E; auto. apply beqb_true in E. destruct (H c r eq_refl E). Qed.
Lemma upToSlash_app a b : ~ In x2f a -> upToSlash (a ++ x2f :: b) = a.
Proof.
  induction a as [|c a IH]; intro N; [reflexivity|]. cbn [app upToSlash]. destruct (beqb c x2f) eqn:E; [apply beqb_true in E; destruct N; left; auto|].
  f_equal. apply IH. intro I. apply N. right. exact I.
Qed.
Lemma Base_last dir base : base <> [] -> ~ In x2f base -> Base (dir ++ x2f :: base) = base.
Proof.
  intros Nb Ns. unfold Base. destruct (dir ++ x2f :: base) as [|z l] eqn:E; [destruct dir; discriminate|]. rewrite <- E. clear E z l.
  rewrite rev_app_distr. cbn [rev]. rewrite <- app_assoc. cbn [app].
  assert (Nr : ~ In x2f (rev base)) by (rewrite <- in_rev; exact Ns).
  rewrite dropSlashes_not.
  - destruct (rev base ++ x2f :: rev dir) eqn:E; [destruct (rev base); discriminate|]. rewrite <- E, upToSlash_app by exact Nr. apply rev_involutive.
  - intros c r E. destruct (rev base) as [|d rb] eqn:Eb.
    + destruct Nb. rewrite <- (rev_involutive base), Eb. reflexivity.
    + cbn in E. injection E as <- _. intros ->. apply Nr. left. reflexivity.
Qed.
Lemma C71_pkg_lem dir base args : base <> [] -> ~ In x2f base ->
  (forall name r, args = name :: r -> name <> [] -> targetPkg (dir ++ x2f :: base) args = name) /\
  (nth 0 args [] = [] -> (~ In x2e base -> targetPkg (dir ++ x2f :: base) args = base) /\
    (forall stem ext, base = stem ++ x2e :: ext -> ~ In x2e ext -> targetPkg (dir ++ x2f :: base) args = stem)).
Proof.
  intros Nb Ns. split.
  - intros name r -> Nn. unfold targetPkg, Arg. cbn [nth]. destruct name; [destruct (Nn eq_refl)|reflexivity].
  - intro A. unfold targetPkg, Arg. rewrite A, Base_last by auto. split.
    + intro Nd. unfold Ext. rewrite extFrom_none.
      * rewrite <- (app_nil_r base) at 1. apply TrimSuffix_app.
      * intros c I ->. apply Nd. apply in_rev. exact I.
    + intros stem ext -> Ne. unfold Ext. rewrite rev_app_distr. cbn [rev]. rewrite <- app_assoc. cbn [app]. rewrite extFrom_dot.
      * rewrite rev_involutive. apply TrimSuffix_app.
      * intros c I. apply in_rev in I. split; intros ->; [exact (Ne I)|]. apply Ns. apply in_or_app. right. right. exact I.
Qed.
