(* What the encoders write (C41, C44). *)
From Coq Require Import Permutation.
From Verif Require Import FloatSpec FmtSpec Bytes Types JsonSpec Parser Doc DocSpec Strjson StrSpec StrThms Float Num NumSpec SetThms FmtThms OptThms Options Codec CodecSpec CodecMerge CodecBase CodecBuild CodecOmit.

(* when the result is no error, something satisfying P was appended to b *)
Definition part (r : res (bytes * option uerr)) (b : bytes) (P : bytes -> Prop) : Prop := forall out, r = Ok (out, None) -> exists w, out = b ++ w /\ P w.
Lemma part_imp r b (P Q : bytes -> Prop) : part r b P -> (forall w, P w -> Q w) -> part r b Q.
Proof. intros H I out E. destruct (H out E) as (w & -> & Pw). eauto. Qed.

Lemma rest_cons p ps : rest (p :: ps) = x2c :: p ++ rest ps. Proof. reflexivity. Qed.
Definition sepd (first : bool) (ws : list bytes) : bytes := if first then join x2c ws else rest ws.
Lemma sepd_cons (first : bool) w ws : (if first then [] else [x2c]) ++ w ++ sepd false ws = sepd first (w :: ws).
Proof. destruct first; cbn [sepd app]; [rewrite join_rest|rewrite rest_cons]; reflexivity. Qed.
Lemma encodeList_part enc (P : gv -> bytes -> Prop) : forall l first b, (forall x b, In x l -> part (enc b x) b (P x)) ->
  part (encodeList enc first l b) b (fun w => exists ws, Forall2 P l ws /\ w = sepd first ws ++ [x5d]).
Proof.
  induction l as [|x l IH]; intros first b H out E; cbn [encodeList] in E.
  - injection E as <-. exists [x5d]. split; [reflexivity|]. exists []. split; [constructor|]. destruct first; reflexivity.
  - ok E. destruct x0 as [o [e|]]; [discriminate|]. destruct (H x _ ltac:(left; reflexivity) o H0) as (w & -> & Pw).
    destruct (IH false _ ltac:(intros; apply H; right; assumption) out E) as (w' & -> & ws & F & ->). exists (sepd first (w :: ws) ++ [x5d]). split; [|exists (w :: ws); auto].
    rewrite <- sepd_cons, <- !app_assoc. destruct first; unfold append1; rewrite <- ?app_assoc; reflexivity.
Qed.
Lemma encodeMap_part encKey enc (PK P : gv -> bytes -> Prop) : forall m first b, (forall k x b, In (k, x) m -> part (encKey b k) b (PK k) /\ part (enc b x) b (P x)) ->
  part (encodeMap encKey enc first m b) b (fun w => exists ms, Forall2 (fun p q => PK (fst p) (fst q) /\ P (snd p) (snd q)) m ms /\ w = sepd first (map (fun q => fst q ++ x3a :: snd q) ms) ++ [x7d]).
Proof.
  induction m as [|[k x] m IH]; intros first b H out E; cbn [encodeMap] in E.
  - injection E as <-. exists [x7d]. split; [reflexivity|]. exists []. split; [constructor|]. destruct first; reflexivity.
  - ok E. destruct x0 as [o [e|]]; [discriminate|]. destruct (proj1 (H k x _ ltac:(left; reflexivity)) o H0) as (wk & -> & Pk). ok E. destruct x0 as [o [e|]]; [discriminate|].
    destruct (proj2 (H k x _ ltac:(left; reflexivity)) o H1) as (w & -> & Pw). destruct (IH false _ ltac:(intros; apply H; right; assumption) out E) as (w' & -> & ms & F & ->).
    exists (sepd first (map (fun q => fst q ++ x3a :: snd q) ((wk, w) :: ms)) ++ [x7d]). split; [|exists ((wk, w) :: ms); split; [constructor; auto|reflexivity]].
    cbn [map fst snd]. rewrite <- sepd_cons, <- !app_assoc. destruct first; unfold append1; rewrite <- ?app_assoc; cbn [app]; reflexivity.
Qed.
Notation fcodec := (codec * (nat * nat))%type.
Inductive wrote (Dr : fcodec -> gv -> Prop) (P : fcodec -> gv -> bytes -> Prop) (v : gv) : list fcodec -> list (bytes * bytes) -> Prop :=
| wo_end : wrote Dr P v [] []
| wo_unreachable c cs ms : (forall x, ~ reaches v (cindex (fst c)) x) -> wrote Dr P v cs ms -> wrote Dr P v (c :: cs) ms
| wo_dropped c x cs ms : reaches v (cindex (fst c)) x -> Dr c x -> wrote Dr P v cs ms -> wrote Dr P v (c :: cs) ms
| wo_member c x cs ms w : reaches v (cindex (fst c)) x -> ~ Dr c x -> P c x w -> wrote Dr P v cs ms -> wrote Dr P v (c :: cs) ((ckey (fst c), w) :: ms).
Lemma encodeFields_part (enc : nat -> encodes) (om : fcodec -> gv -> res bool) (Dr : fcodec -> gv -> Prop) (P : fcodec -> gv -> bytes -> Prop) v :
  forall cs more b, (forall c x b, In c cs -> om c x = Ok b -> if b then Dr c x else ~ Dr c x) -> (forall c x b, In c cs -> reaches v (cindex (fst c)) x -> part (enc (snd (snd c)) b x) b (P c x)) ->
  part (encodeFields enc om more cs v b) b (fun w => exists ms, wrote Dr P v cs ms /\ w = (if more then rest (map member ms) else x7b :: join x2c (map member ms)) ++ [x7d]).
Proof.
  induction cs as [|c cs IH]; intros more b D H out E; cbn [encodeFields] in E.
  - injection E as <-. destruct more; eexists; (split; [reflexivity|]); exists []; (split; [constructor|reflexivity]).
  - assert (Hr : forall c x b, In c cs -> reaches v (cindex (fst c)) x -> part (enc (snd (snd c)) b x) b (P c x)) by (intros; apply H; [right|]; assumption).
    assert (Dr' : forall c x b, In c cs -> om c x = Ok b -> if b then Dr c x else ~ Dr c x) by (intros; apply D; [right|]; assumption).
    ok E. destruct x as [x|].
    + pose proof (fieldByIndex_some _ _ _ H0) as R. ok E. pose proof (D _ _ _ (or_introl eq_refl) H1) as Dx. destruct x0.
      * destruct (IH more b Dr' Hr out E) as (w & -> & ms & W & ->). eexists. split; [reflexivity|]. exists ms. split; auto. eapply wo_dropped; eassumption.
      * ok E. destruct x0 as [o [e|]]; [discriminate|]. destruct (H c x _ ltac:(left; reflexivity) R o H2) as (w & -> & Pw). destruct (IH true _ Dr' Hr out E) as (w' & -> & ms & W & ->).
        eexists. split; [|exists ((ckey (fst c), w) :: ms); split; [eapply wo_member; eassumption|reflexivity]].
        cbn [map]. rewrite join_rest, rest_cons. unfold member. cbn [fst snd]. destruct more; unfold append1; rewrite <- ?app_assoc; cbn [app]; rewrite <- ?app_assoc; cbn [app]; rewrite <- ?app_assoc; reflexivity.
    + pose proof (fieldByIndex_none _ _ H0) as R. destruct (IH more b Dr' Hr out E) as (w & -> & ms & W & ->). eexists. split; [reflexivity|]. exists ms. split; auto. eapply wo_unreachable; eassumption.
Qed.
Lemma reaches_inside v p x : reaches v p x -> inside v x.
Proof. induction 1; [constructor|eapply ins_struct; [eapply nth_error_In; eassumption|assumption]|constructor; assumption]. Qed.

Lemma encodeString_spec html b s : exists w, encodeString html b s = Ok (b ++ x22 :: w ++ [x22], None) /\ rfc_chars w /\ Escaped s html false = Ok w.
Proof.
  destruct (C27_lem s html) as (w & rs & E & _ & R & _). exists w. split; auto. unfold encodeString, append1. rewrite (C28_lem _ _ _ _ E). cbn [bind]. rewrite <- !app_assoc. reflexivity.
Qed.
Lemma encodeText_part E t b v : part (encodeText E t b v) b (fun w => exists x, callText E t v = Ok (x, None) /\ w = x22 :: x ++ [x22]).
Proof.
  intros out H. unfold encodeText in H. ok H. destruct x as [x [e|]]; [discriminate|]. injection H as <-. exists (x22 :: x ++ [x22]). split; [|eauto]. unfold append1. rewrite <- !app_assoc. reflexivity.
Qed.
Lemma encodeJSON_part E t b v : part (encodeJSON E t b v) b (fun w => callJSON E t v = Ok (Some w, None) \/ (w = [] /\ callJSON E t v = Ok (None, None))).
Proof.
  intros out H. unfold encodeJSON in H. ok H. destruct x as [[x|] [e|]]; try discriminate; injection H as <-; [exists x; auto|exists []; rewrite app_nil_r; auto].
Qed.
Lemma AppendFloat_spec ft b f : ftoa_spec ft -> ftoa_special ft -> canonical b64 f -> exists w, AppendFloat ft b f 32 = Ok (b ++ w).
Proof.
  intros S Sp C. assert (Nw : exists g, narrow 32 f g).
  { destruct f as [|s|s m e]; [exists FNaN; right; auto|exists (FInf s); right; auto|]. exists (to32 (FFin s m e)). right. split; auto. apply to32_rounded. destruct C as [[? _] _]. lia. }
  destruct Nw as (g & Nw). assert (D : finite g \/ ~ finite g) by (destruct g; cbn; tauto). destruct D as [D|D].
  - destruct (C38_lem ft b f g 32 S C Nw D) as (p & p' & _ & A & _). eauto.
  - unfold AppendFloat. cbn [Z.eqb Pos.eqb orb]. rewrite (Sp f g _ 32%Z C Nw D). destruct (useExp f 32); [|eauto].
    set (w := match g with FInf false => str "+Inf" | FInf true => str "-Inf" | _ => str "NaN" end) in *.
    exists w. unfold cleanup. destruct (length (b ++ w) <? 4)%nat eqn:L4; auto. f_equal.
    assert (W : w = str "+Inf" \/ w = str "-Inf" \/ w = str "NaN") by (subst w; destruct g as [|[]|]; auto).
    assert (Q : length w = 4%nat /\ skipn (length (b ++ w) - 4)%nat (b ++ w) = w \/ (length w = 3%nat /\ exists b' c, b = b' ++ [c] /\ skipn (length (b ++ w) - 4)%nat (b ++ w) = c :: w)).
    { assert (Lw : length w = 4%nat \/ length w = 3%nat) by (destruct W as [->|[->| ->]]; cbn; auto). destruct Lw as [Lw|Lw]; [left|right]; (split; [exact Lw|]).
      - rewrite app_length, Lw, Nat.add_sub. rewrite skipn_app, skipn_all, Nat.sub_diag. reflexivity.
      - apply Nat.ltb_ge in L4. rewrite app_length, Lw in L4. destruct (exists_last (l := b)) as (b' & c & ->); [intros ->; cbn in L4; lia|]. exists b', c. split; auto.
        rewrite !app_length, Lw. cbn [length]. replace (length b' + 1 + 3 - 4)%nat with (length b') by lia. rewrite <- app_assoc, skipn_app, skipn_all, Nat.sub_diag. reflexivity. }
    destruct Q as [[_ Q]|[_ (b' & c & -> & Q)]]; rewrite Q; destruct W as [->|[->| ->]]; cbn; rewrite ?andb_false_r; try reflexivity.
Qed.

(* ---- every encoder appends ---- *)
Lemma part_str b w : part (Ok (b ++ w, None)) b (fun _ => True).
Proof. intros out H. injection H as <-. eauto. Qed.
Lemma inside_canonical v x : canonical_floats v -> inside v x -> canonical_floats x.
Proof. intros C I f If. apply C. eapply inside_trans; eassumption. Qed.
Lemma encodeKey_part E k b v : part (encodeKey E k b v) b (fun _ => True).
Proof.
  unfold encodeKey. destruct (typeOf E k) as [K|]; [|discriminate]. destruct (isText (tmeth K)); [eapply part_imp; [apply encodeText_part|auto]|].
  destruct v; try discriminate. destruct (encodeString_spec false b s) as (w & -> & _). apply part_str.
Qed.
Lemma part_bind {A} (r : res A) f b P : (forall x, r = Ok x -> part (f x) b P) -> part (bind r f) b P.
Proof. intros H out Eo. ok Eo. exact (H _ H0 _ Eo). Qed.
Lemma encodeTop_part (enc : list cobj -> nat -> bool -> encodes) E t b v P : (forall t v b, part (callAppend E t v b) b P) -> (forall t v b, part (encodeJSON E t b v) b P) -> (forall t v b, part (encodeText E t b v) b P) ->
  (forall mt G o addr x, newCodec E defaultOptions (IEnc mt) = Ok (Some (o, G)) -> inside v x -> part (enc G o addr b x) b P) -> part (encodeTop enc E t b v) b P.
Proof.
  intros HA HJ HT HE. unfold encodeTop. destruct (typeOf E t) as [T|]; [|discriminate]. destruct (match tkind T with KPtr e => (e, tmeth T) | _ => (t, tptr T) end) as [mt pm].
  apply part_bind. intros m Em. destruct m as [m|]; [|discriminate]. apply part_bind. intros x Ex.
  assert (I : inside v x) by (destruct (tkind T); try (injection Ex as <-; constructor; fail); destruct v as [| | | | | |[y|]| | | | |]; try discriminate; injection Ex as <-; repeat constructor).
  destruct (typeOf E mt) as [M|]; [|discriminate]. destruct m as [[o G]|].
  - apply (HE mt); [|exact I]. destruct (marshals pm); [discriminate|]. ok Em. injection Em as Em. destruct x0 as [r|]; [|discriminate]. injection Em as ->. exact H.
  - destruct (isAppender pm); [destruct (isAppender (tmeth M)); [apply HA|discriminate]|].
    destruct (isJSON pm); [destruct (isJSON (tmeth M)); [apply HJ|discriminate]|]. destruct (isText (tmeth M)); [apply HT|discriminate].
Qed.
Lemma part_prefix r b c P : part r (b ++ c) P -> part r b (fun w => exists w', w = c ++ w' /\ P w').
Proof. intros H out E. destruct (H out E) as (w & -> & Pw). exists (c ++ w). rewrite app_assoc. eauto. Qed.
Lemma part_true r b (P : bytes -> Prop) : part r b P -> part r b (fun _ => True).
Proof. intro H. eapply part_imp; [exact H|auto]. Qed.
Lemma encode_appends E : appends E -> ftoa_spec (ftoa E) -> ftoa_special (ftoa E) -> walks_maps E ->
  forall fuel G O o addr b v, canonical_floats v -> part (encode fuel E G O o addr b v) b (fun _ => True).
Proof.
  intros A S Sp WM.
  assert (HA : forall t v b, part (callAppend E t v b) b (fun _ => True)) by (intros t v b out H; destruct (A _ _ _ _ H) as (w & ->); eauto).
  assert (HJ : forall t v b, part (encodeJSON E t b v) b (fun _ => True)) by (intros; eapply part_true; apply encodeJSON_part).
  assert (HT : forall t v b, part (encodeText E t b v) b (fun _ => True)) by (intros; eapply part_true; apply encodeText_part).
  induction fuel as [|k IH]; [discriminate|]. intros G O o addr b v C. cbn [encode]. destruct (nth_error G o) as [[[t|t]|[t|t] h p|t fs]|]; try discriminate.
  { destruct (typeOf E t) as [T|]; [|discriminate]. destruct (isAppender (tmeth T)); [apply HA|]. destruct (isJSON (tmeth T)); [apply HJ|apply HT]. }
  2:{ eapply part_true. apply (encodeFields_part _ _ (fun c x => omit k E G O addr c x = Ok true) (fun _ _ _ => True)); [intros c x [] _ ->; congruence|].
    intros c x b' _ R. apply IH. eapply inside_canonical; [exact C|eapply reaches_inside; exact R]. }
  destruct (typeOf E t) as [T|]; [|discriminate]. destruct (tkind T) as [| | | | | |[]|e|e|n e|kt e|fs|]; try discriminate.
  - destruct v; try discriminate. apply part_str.
  - destruct v; try discriminate. apply part_str.
  - destruct v; try discriminate. apply part_str.
  - destruct v as [| | |f| | | | | | | |]; try discriminate. specialize (C f ltac:(constructor)). destruct f as [|s|s m e]; cbn [encodeFloat].
    + destruct (oNaN O); [apply part_str|discriminate].
    + destruct (oInf O); [apply part_str|discriminate].
    + destruct (AppendFloat_spec (ftoa E) b _ S Sp C) as (w & ->). apply part_str.
  - destruct v as [| | |f| | | | | | | |]; try discriminate. specialize (C f ltac:(constructor)). destruct f as [|s|s m e]; cbn [encodeFloat].
    + destruct (oNaN O); [apply part_str|discriminate].
    + destruct (oInf O); [apply part_str|discriminate].
    + destruct (AppendFloat_spec (ftoa E) b _ S Sp C) as (w & ->). apply part_str.
  - destruct v as [| | | |s| | | | | | |]; try discriminate. destruct (hasHint h hintHTML); [destruct (encodeString_spec true b s) as (w & -> & _); apply part_str|].
    destruct (hasHint h hintRaw); [|destruct (encodeString_spec false b s) as (w & -> & _); apply part_str]. unfold append1. rewrite <- !app_assoc. apply part_str.
  - destruct v as [| | | | |[[dt x]|]| | | | | |]; try discriminate; [|apply part_str]. apply encodeTop_part; auto. intros mt G' o' ad y _ I. apply IH.
    eapply inside_canonical; [exact C|]. constructor. exact I.
  - destruct v as [| | | | | |[x|]|[[l s]|]| |[m|]| |]; cbn [isNil bind]; try discriminate; try (apply part_str).
    + destruct x; [discriminate|apply part_str].
    + apply IH. eapply inside_canonical; [exact C|]. repeat constructor.
  - destruct v as [| | | | | | |[[l s]|]| | | |]; try discriminate; [|unfold append1; rewrite <- app_assoc; apply part_str]. eapply part_true. unfold append1. apply part_prefix.
    apply (encodeList_part _ (fun _ _ => True)). intros x b' I. apply IH. eapply inside_canonical; [exact C|]. eapply ins_slice; [exact I|constructor].
  - destruct v as [| | | | | | | |l| | |]; try discriminate. destruct (length l =? n)%nat; [|discriminate]. eapply part_true. unfold append1. apply part_prefix.
    apply (encodeList_part _ (fun _ _ => True)). intros x b' I. apply IH. eapply inside_canonical; [exact C|]. eapply ins_array; [exact I|constructor].
  - destruct v as [| | | | | | | | |[m|]| |]; try discriminate; [|apply part_str]. eapply part_true. unfold append1. apply part_prefix.
    apply (encodeMap_part _ _ (fun _ _ => True) (fun _ _ => True)). intros key x b' I. split; [apply encodeKey_part|]. apply IH. eapply inside_canonical; [exact C|].
    eapply ins_map; [|constructor]. eapply Permutation_in; [apply WM|exact I].
Qed.

(* ---- C44 ---- *)
Lemma wrote_written E G O addr v (Dr : fcodec -> gv -> Prop) (P : fcodec -> gv -> bytes -> Prop) : (forall c x w, P c x w -> exists b fuel, encode fuel E G O (snd (snd c)) addr b x = Ok (b ++ w, None)) ->
  (forall c x, Dr c x <-> dropped E O addr (fst c) x) -> forall fs ms, wrote Dr P v fs ms -> written E G O addr v fs ms.
Proof.
  intros H D. induction 1; [constructor|eapply wr_unreachable; eassumption|eapply wr_dropped; [eassumption|apply D; assumption|assumption]|]. destruct (H _ _ _ H2) as (b & fuel & En). destruct c as [c [d e]]. cbn [fst snd] in *.
  eapply wr_member; [eassumption|intro K; apply H1; apply D; exact K|exact En|assumption].
Qed.
Lemma C44_lem E O it o G p t fs fuel addr b v out : appends E -> ftoa_spec (ftoa E) -> ftoa_special (ftoa E) -> walks_maps E -> canonical_floats v ->
  newCodec E O it = Ok (Some (o, G)) -> nth_error G p = Some (CStruct t fs) -> encode fuel E G O p addr b v = Ok (out, None) ->
  exists l ms, structFields E O t = Ok (map fst fs) /\ offers E O t [] l /\ subseq (map fst fs) l /\ written E G O addr v fs ms /\ out = b ++ x7b :: join x2c (map member ms) ++ [x7d].
Proof.
  intros A S Sp WM C Nc Np En. destruct (newCodec_sound _ _ _ _ _ Nc) as [Sd _]. destruct (Sd p _ Np) as (T & l0 & Ty & K & _ & Sf & F). rewrite Forall_forall in F. destruct fuel as [|k]; [discriminate|]. cbn [encode] in En. rewrite Np in En.
  set (P := fun (c : fcodec) x w => exists b fuel, encode fuel E G O (snd (snd c)) addr b x = Ok (b ++ w, None)).
  assert (Pt : part (encodeFields (fun e => encode k E G O e addr) (omit k E G O addr) false fs v b) b
    (fun w => exists ms, wrote (fun c => dropped E O addr (fst c)) P v fs ms /\ w = (x7b :: join x2c (map member ms)) ++ [x7d])).
  { apply (encodeFields_part _ _ (fun c => dropped E O addr (fst c)) P v) with (more := false).
    - intros c x b0 Ic. apply omit_spec; [exact Sd|]. exact (proj2 (F c Ic)).
    - intros c x b' Ic R o' Eo. destruct (encode_appends E A S Sp WM k G O _ _ _ _ (inside_canonical _ _ C (reaches_inside _ _ _ R)) o' Eo) as (w & -> & _). exists w. split; [reflexivity|]. exists b', k. exact Eo. }
  destruct (Pt out En) as (w & -> & ms & W & ->). destruct (structFields_offers _ _ _ _ Sf) as (l & Ol & Ec). destruct (C46_partial_lem _ _ _ _ Sf l Ol) as (Sl & _).
  exists l, ms. repeat split; auto. apply (wrote_written E G O addr v (fun c => dropped E O addr (fst c)) P); [auto|intros c x; reflexivity|exact W].
Qed.
Lemma C44_top_lem E O t o G : fieldwise E t -> newCodec E O (IEnc t) = Ok (Some (o, G)) -> exists fs, nth_error G o = Some (CStruct t fs).
Proof.
  intros Fw Nc. destruct (newCodec_sound _ _ _ _ _ Nc) as [Sd Sv]. destruct (serves_cases E O G o _ _ Sd Sv) as (T & Ty & Cs). apply (fieldwise_handled E t T Ty) in Fw as [(l & K) Hd].
  destruct Cs as [[Hd' _]|[(l' & fs & _ & No & _)|(_ & Ns & _)]]; [congruence|exists fs; exact No|exfalso; exact (Ns l K)].
Qed.
Lemma written_keys E G O addr v fs ms : written E G O addr v fs ms -> subseq (map fst ms) (map ckey (map fst fs)).
Proof. induction 1; cbn; [constructor|apply sub_drop; assumption|apply sub_drop; assumption|apply sub_keep; assumption]. Qed.
Lemma NoDup_subseq {A} (a b : list A) : subseq a b -> NoDup b -> NoDup a.
Proof.
  induction 1; intro N; auto.
  - inversion N; subst. constructor; auto. intro K. apply H2. eapply subseq_In; eassumption.
  - inversion N; subst. auto.
Qed.
Lemma structFields_once E O t cs l : structFields E O t = Ok cs -> offers E O t [] l -> (forall key, first_is_shortest l key) -> NoDup (map ckey cs).
Proof.
  intros F Ol FS. destruct (C46_partial_lem _ _ _ _ F l Ol) as (_ & _ & H).
  assert (U : forall key, (length (with_key key cs) <= 1)%nat).
  { intro key. specialize (H key (FS key)). destruct (with_key key l); [rewrite H; cbn; lia|]. destruct H as (-> & _). cbn. lia. }
  clear - U. unfold with_key in U. induction cs as [|c cs IH]; cbn; [constructor|]. constructor.
  - intro I. apply in_map_iff in I as (d & Ed & Id). specialize (U (ckey c)). cbn in U. rewrite bseqb_refl in U. cbn [length] in U.
    assert (In d (filter (fun c0 => bseqb (ckey c0) (ckey c)) cs)) by (apply filter_In; split; auto; rewrite Ed; apply bseqb_refl). destruct (filter (fun c0 => bseqb (ckey c0) (ckey c)) cs); [contradiction|]. cbn in U. lia.
  - apply IH. intro key. specialize (U key). cbn in U. destruct (bseqb (ckey c) key); cbn in U; lia.
Qed.
Lemma C44_once_lem E G O addr v t fs l ms : structFields E O t = Ok (map fst fs) -> offers E O t [] l -> (forall key, first_is_shortest l key) -> written E G O addr v fs ms -> NoDup (map fst ms).
Proof. intros F Ol FS W. eapply NoDup_subseq; [eapply written_keys; exact W|]. eapply structFields_once; eassumption. Qed.
Lemma C44_go_lem E O addr c x : typed E (ctype c) x -> silent E O (ctype c) -> omitempty c ->
  (forall n e, kindOf E (ctype c) <> Some (KArray n e)) -> ~ fieldwise E (ctype c) -> kindOf E (ctype c) <> Some (KIface true) -> kindOf E (ctype c) <> Some KOther ->
  (dropped E O addr c x <-> go_empty x).
Proof.
  intros T S Om NA Nf NI NO. split.
  - intro D. inversion D as [? ? _ _ M| |]; subst; try contradiction.
    inversion M; subst; try (exfalso; eapply silent_asks; eassumption); try (constructor; assumption); [exfalso; eapply NA; eassumption|match goal with A : _ \/ _ |- _ => destruct A; contradiction end].
  - intro G. apply dr_value; auto. inversion G; subst; inversion T; subst; try (econstructor; eauto; fail).
    destruct m; [contradiction|]. apply em_iface; assumption.
Qed.
