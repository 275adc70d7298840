(* The fields that the codec of a struct has and those that encoding/json takes (C77). *)
From Coq Require Import Permutation.
From Verif Require Import FloatSpec FmtSpec Bytes Types JsonSpec StrSpec Parser Doc DocSpec Strjson Utf8 Utf8Proofs StrProofs StrThms Float NumSpec Num Iface IfaceSpec Options OptSpec OptThms Codec CodecSpec DecodeSpec RoundSpec CodecMerge CodecBase CodecEnc TreeSpec TreeThms TreeDet GoLitSpec Gen GenSpec GenFields GenApp AgreeSpec AgreeThms StdSpec.
Local Open Scope nat_scope.

(* ---- one text, one number ---- *)
Definition stops (s : bytes) : Prop := match s with [] => True | c :: _ => ~ digit c end.
Lemma digits_split a : forall b r s, digits a -> digits b -> stops r -> stops s -> a ++ r = b ++ s -> a = b /\ r = s.
Proof.
  induction a as [|x a IH]; intros [|y b] r s Da Db Sr Ss H; cbn in H; auto.
  - subst r. inversion Db; subst. contradiction.
  - subst s. inversion Da; subst. contradiction.
  - injection H as -> H. inversion Da; inversion Db; subst. destruct (IH b r s) as (-> & ->); auto.
Qed.
Lemma text_one p q : shape one_sign p -> shape one_sign q -> text p = text q -> p = q.
Proof.
  destruct p as [n i f e], q as [n' i' f' e']. unfold shape, text. cbn [pneg pint pfrac pexp]. intros (Di & Ni & Df & De) (Di' & Ni' & Df' & De') H.
  assert (Se : forall e, match e with Some (c, sg, ds) => (c = x65 \/ c = x45) /\ one_sign sg /\ digits ds /\ ds <> [] | None => True end -> stops (exp_text e)).
  { intros [[[c sg] ds]|]; cbn; auto. intros ([->| ->] & _) X; vm_compute in X; destruct X as (_ & X); apply X; reflexivity. }
  assert (Sf : forall f e, stops (exp_text e) -> stops (frac_text f ++ exp_text e)).
  { intros [ds|] e0 S; cbn; auto. intro X; vm_compute in X; destruct X as (X & _); apply X; reflexivity. }
  assert (A : n = n' /\ i ++ frac_text f ++ exp_text e = i' ++ frac_text f' ++ exp_text e').
  { assert (D : forall i, digits i -> i <> [] -> forall r s, i ++ r <> x2d :: s). { intros [|c j] Dj Nj r s X; [congruence|]. injection X as -> _. inversion Dj as [|? ? Dc]; subst. vm_compute in Dc. destruct Dc as (X & _). apply X. reflexivity. }
    destruct n, n'; cbn [app] in H; [injection H as H; auto|exfalso; symmetry in H; eapply D; [| |exact H]; assumption|exfalso; eapply D; [| |exact H]; assumption|auto]. }
  destruct A as (-> & A). apply digits_split in A; auto. destruct A as (-> & A).
  assert (B : f = f' /\ exp_text e = exp_text e').
  { assert (Dn : forall e s, match e with Some (c, sg, ds) => (c = x65 \/ c = x45) /\ one_sign sg /\ digits ds /\ ds <> [] | None => True end -> exp_text e <> x2e :: s).
    { intros [[[c sg] ds]|] s X Y; cbn in Y; [|discriminate]. destruct X as ([->| ->] & _); discriminate Y. }
    destruct f as [ds|], f' as [ds'|]; cbn [frac_text app] in A.
    - injection A as A. destruct Df, Df'. apply digits_split in A; auto. destruct A as (-> & ->). auto.
    - symmetry in A. destruct (Dn _ _ De' A).
    - destruct (Dn _ _ De A).
    - auto. }
  destruct B as (-> & B). f_equal. destruct e as [[[c sg] ds]|], e' as [[[c' sg'] ds']|]; cbn in B; try discriminate; auto. injection B as -> B. destruct De as (_ & Sg & Dd & Nd), De' as (_ & Sg' & Dd' & Nd').
  assert (C : sg = sg' /\ ds = ds').
  { assert (Dx : forall c ds s, digits ds -> c = x2d \/ c = x2b -> ds = c :: s -> False). { intros c ds0 s D X ->. inversion D as [|? ? Dc]; subst. destruct X as [->| ->]; vm_compute in Dc; destruct Dc as (X & _); apply X; reflexivity. }
    destruct Sg as [->|[->| ->]], Sg' as [->|[->| ->]]; cbn in B; try (injection B as B); subst; auto; try discriminate; exfalso; try (eapply Dx; [| |reflexivity]; eauto; fail); try (eapply Dx; [| |symmetry; reflexivity]; eauto; fail). }
  destruct C as (-> & ->). reflexivity.
Qed.

(* ---- what Escaped writes ---- *)
Lemma hexval_hexchar n : (n < 16)%N -> hexval (hexchar n) = n.
Proof. intro L. unfold hexval, hexchar. destruct (N.ltb_spec n 10) as [A|A]; rewrite bNb by lia; [rewrite (proj2 (N.ltb_lt _ _)) by lia; lia|]. rewrite (proj2 (N.ltb_ge _ _)) by lia. rewrite (proj2 (N.ltb_ge _ _)) by lia. lia. Qed.
Lemma u_escape_tame r w : (r < 65536)%N -> scalar r -> tame w -> tame (u_escape r ++ w).
Proof.
  intros L S T. unfold u_escape. cbn [app]. assert (A : (r / 4096 < 16)%N) by dm. assert (B : ((r / 256) mod 16 < 16)%N) by dm. assert (C : ((r / 16) mod 16 < 16)%N) by dm. assert (D : (r mod 16 < 16)%N) by dm.
  apply StrSpec.t_u; try (apply hexchar_ok; assumption); [|exact T]. left. unfold hex4. rewrite !hexval_hexchar by assumption.
  replace (4096 * (r / 4096) + 256 * ((r / 256) mod 16) + 16 * ((r / 16) mod 16) + r mod 16)%N with r by dm. exact S.
Qed.
Lemma plain_tame s w : ~ In x5c s -> tame w -> tame (s ++ w).
Proof. induction s as [|c s IH]; cbn; intros N T; [exact T|]. apply StrSpec.t_plain; [intros ->; apply N; auto|]. apply IH; auto. Qed.
Lemma escape_tame h r w : scalar r -> tame w -> tame (escape_of h r ++ w).
Proof.
  intros S T. unfold escape_of.
  destruct (r =? 34)%N; [apply (StrSpec.t_other x22 w); [discriminate|exact T]|].
  destruct (r =? 92)%N eqn:Eb; [apply (StrSpec.t_other x5c w); [discriminate|exact T]|].
  repeat match goal with |- tame ((if ?b then [x5c; ?e] else _) ++ w) => destruct b; [apply (StrSpec.t_other e w); [discriminate|exact T]|] end.
  assert (H : forall b : bool, (b = true -> (r < 65536)%N) -> forall x, tame (x ++ w) -> tame ((if b then u_escape r else x) ++ w)).
  { intros [] L x X; [apply u_escape_tame; auto|exact X]. }
  apply H; [|apply H].
  - rewrite orb_true_iff, orb_true_iff, andb_true_iff. unfold html_char. rewrite !orb_true_iff, N.ltb_lt, !N.eqb_eq. lia.
  - rewrite !orb_true_iff, !N.eqb_eq. unfold replacement. lia.
  - apply plain_tame; auto. intro I. destruct (N.lt_ge_cases r 128) as [L|L].
    + unfold utf8 in I. rewrite (proj2 (N.ltb_lt _ _) L) in I. destruct I as [I|[]]. assert (X : bN (Nb r) = bN x5c) by (rewrite I; reflexivity). rewrite bNb in X by lia. apply N.eqb_neq in Eb. apply Eb. exact X.
    + pose proof (high_bytes r L S) as F. rewrite Forall_forall in F. specialize (F _ I). vm_compute in F. apply F. reflexivity.
Qed.
Lemma escapes_tame h rs : Forall scalar rs -> tame (concat (map (escape_of h) rs)).
Proof. induction 1; cbn [map concat]; [constructor|]. apply escape_tame; assumption. Qed.
Lemma Escaped_means s h w : Escaped s h false = Ok w -> exists rs, runes s rs /\ meaning w (utf8s rs).
Proof.
  intro W. destruct (runes_exist s) as (rs & R & _ & S & _). exists rs. split; [exact R|]. destruct (C26_lem s rs h R) as (e & We & U). assert (e = w) by congruence. subst e.
  pose proof (C27_exact_lem s rs h R) as X. rewrite W in X. injection X as ->. destruct (meaning_total (concat (map (escape_of h) rs))) as (o & M). pose proof (C31_lem _ _ (escapes_tame h rs S) M) as U'. rewrite U in U'. injection U' as ->. exact M.
Qed.
Lemma plain_means s : ~ In x5c s -> meaning s s.
Proof. induction s as [|c s IH]; cbn; intro N; [constructor|]. apply m_plain; [intros ->; apply N; auto|]. apply IH; auto. Qed.

(* ---- the fields ---- *)
Lemma path_lt_irrefl p : ~ path_lt p p.
Proof. intros (a & x & y & r & s & A & B & L). rewrite A in B. apply app_inv_head in B. injection B as -> _. lia. Qed.
Lemma path_lt_asym p q : path_lt p q -> path_lt q p -> False.
Proof.
  intros (a & x & y & r & s & -> & -> & L) (b & x' & y' & r' & s' & A & B & L'). revert b A B.
  induction a as [|z a IH]; intros [|z' b] A B; cbn in *; injection A; injection B; intros; subst; try lia. eapply IH; eassumption.
Qed.

Section Fields.
  Variables (E : env) (letter : N -> Prop).
  Hypotheses (SF : forall t fs, kindOf E t = Some (KStruct fs) -> Forall (std_field E letter) fs) (ES : embeds_structs E).
  Notation D := defaultOptions.
  (* an entry of the codec and the field of encoding/json *)
  Definition stands (p : list Z) (c : codec) (s : sfld) : Prop :=
    ckey c = s_name s /\ cindex c = p ++ s_path s /\ ctype c = s_type s /\ (omitempty c <-> s_omit s = true) /\ s_quoted s = false /\ ~ In x5c (ckey c) /\ (omitempty c -> omittable (kindOf E (ctype c))).
  Lemma omit_bits ps : N.land (bits ps) hintOmitempty = hintOmitempty <-> OptSpec.has (str "omitempty") ps = true.
  Proof.
    unfold bits. destruct (OptSpec.has (str "8bit") ps), (OptSpec.has (str "html") ps), (OptSpec.has (str "omitempty") ps); split; intro H; try reflexivity; try discriminate H. all: try (exfalso; vm_compute in H; discriminate H).
  Qed.
  Lemma no_string ps : ~ In (str "string") ps -> OptSpec.has (str "string") ps = false.
  Proof. intro N. destruct (OptSpec.has (str "string") ps) eqn:H; [apply has_In in H; contradiction|reflexivity]. Qed.
  (* The tag of a field, in both readings. *)
  Lemma tag_read f : std_field E letter f ->
    (exists h g, parseField false (fname f) (ftag f) (flookup f (str "json")) = Some (str "-", h, g)) /\ (forall name ps, ~ std_tag letter f name ps) \/
    (exists name ps h g, parseField false (fname f) (ftag f) (flookup f (str "json")) = Some (match name with [] => fname f | _ => name end, h, g) /\ match name with [] => fname f | _ => name end <> str "-" /\
       (forall name' ps', std_tag letter f name' ps' <-> name' = name /\ ps' = ps) /\ (N.land h hintOmitempty = hintOmitempty <-> OptSpec.has (str "omitempty") ps = true) /\ OptSpec.has (str "string") ps = false /\
       (g = true -> fanon f = true -> name <> []) /\ (name <> [] -> g = true) /\ ~ In x5c (match name with [] => fname f | _ => name end) /\ (N.land h hintOmitempty = hintOmitempty -> omittable (kindOf E (ftype f)))).
  Proof.
    intros (_ & Nd & Nb & Tg). destruct (flookup f (str "json")) as [v|] eqn:Lk.
    - destruct (split_exists_unique v) as (p & ps & Fo & Ev & Un). destruct (Tg v p ps eq_refl Fo Ev) as (Ln & Va & Np & Da & An & Ns & Om).
      pose proof (parseField_lem false (fname f) (ftag f) p ps Fo) as Pf. rewrite <- Ev in Pf. specialize (Pf Ln). cbn iota in Pf.
      destruct (bseqb p (str "-")) eqn:Bp.
      + apply bseqb_true in Bp. specialize (Da Bp). subst ps. subst p. left. assert (Hv : v = str "-") by exact Ev. clear Ev. subst v. split; [eexists; eexists; exact Pf|].
        intros name ps H. inversion H as [L|v p q L N Fq Ej _|v p q L N Fq Ej _]; subst; congruence.
      + assert (Pd : p <> str "-") by (intro X; apply bseqb_true in X; congruence). right. exists p, ps, (bits ps), true.
        split; [exact Pf|]. split; [destruct p; assumption|]. split; [|split; [apply omit_bits|split; [apply no_string; exact Ns|split; [intros _; exact An|split; [reflexivity|split; [destruct p; assumption|intro H; apply Om, has_In, omit_bits; exact H]]]]]].
        assert (Vd : v <> str "-").
        { intro Hv. assert (X : str "-" :: [] = p :: ps) by (apply Un; [constructor; [unfold no_comma; cbn; intros [X|[]]; discriminate|constructor]|exact Hv]). injection X as X _. congruence. }
        intros name ps'. split.
        * intro H. inversion H as [L|v' q qs L N Fq Ej Vq|v' q qs L N Fq Ej Vq]; subst; [congruence| |].
          -- rewrite Lk in L. injection L as L. pose proof (Un _ _ Fq L) as X. injection X as -> ->. split; reflexivity.
          -- rewrite Lk in L. injection L as L. pose proof (Un _ _ Fq L) as X. injection X as -> ->. destruct Va as [->|Va]; [split; reflexivity|contradiction].
        * intros (-> & ->). destruct Va as [->|Va]; [eapply sg_bad; try eassumption; intros (X & _); congruence|eapply sg_name; eassumption].
    - right. exists [], [], 0%N, false. split; [apply (parseField_none false)|]. split; [exact Nd|]. split.
      + intros name ps. split; [intro H; inversion H; subst; try congruence; split; reflexivity|]. intros (-> & ->). apply sg_none. exact Lk.
      + split; [split; intro H; vm_compute in H; discriminate|]. split; [reflexivity|]. split; [discriminate|]. split; [congruence|]. split; [exact Nb|]. intro H. vm_compute in H. discriminate.
  Qed.
  Definition from (t : tid) (i : nat) (s : sfld) : Prop := candidate E letter t s /\ exists k r, s_path s = Z.of_nat k :: r /\ i <= k.
  (* Candidates of a struct: those of the field at i and those behind it. *)
  Inductive at_field (t : tid) (i : nat) (f : sfield) : sfld -> Prop :=
  | af_named name opts : std_tag letter f name opts -> fcanset f = true -> name <> [] -> at_field t i f (mkSF name [Z.of_nat i] (ftype f) true (OptSpec.has (str "omitempty") opts) (OptSpec.has (str "string") opts))
  | af_plain opts : std_tag letter f [] opts -> fcanset f = true -> (forall u p, ~ embedded E f u p) -> at_field t i f (mkSF (fname f) [Z.of_nat i] (ftype f) false (OptSpec.has (str "omitempty") opts) (OptSpec.has (str "string") opts))
  | af_deep opts u p s : std_tag letter f [] opts -> embedded E f u p -> candidate E letter u s -> at_field t i f (under (Z.of_nat i :: p) s).
  Lemma from_split t pre f fs s : kindOf E t = Some (KStruct (pre ++ f :: fs)) -> from t (length pre) s <-> at_field t (length pre) f s \/ from t (S (length pre)) s.
  Proof.
    intro K. assert (N0 : nth_error (pre ++ f :: fs) (length pre) = Some f) by (rewrite nth_error_app2, Nat.sub_diag by lia; reflexivity). split.
    - intros (C & k & r & Pk & L). destruct (Nat.eq_dec k (length pre)) as [->|Nk]; [left|right; split; [exact C|exists k, r; split; [exact Pk|lia]]].
      inversion C as [t' gs i g name opts K' N Tg Cs Nn|t' gs i g opts K' N Tg Cs Ne|t' gs i g opts u p c K' N Tg Em Cu]; subst; cbn [s_path under] in Pk; injection Pk as Pk; apply Nat2Z.inj in Pk; subst;
        rewrite K in K'; injection K' as <-; rewrite N0 in N; injection N as <-; econstructor; eassumption.
    - intros [A|(C & k & r & Pk & L)]; [|split; [exact C|exists k, r; split; [exact Pk|lia]]].
      inversion A; subst; (split; [econstructor; eassumption|]); cbn [s_path under]; eexists; eexists; (split; [cbn; reflexivity|lia]).
  Qed.
  Lemma offers_std :
    (forall t p l, offers E D t p l -> exists ss, Forall2 (stands p) l ss /\ forall s, In s ss <-> candidate E letter t s) /\
    (forall p i fs l, offers_from E D p i fs l -> forall t pre, kindOf E t = Some (KStruct (pre ++ fs)) -> length pre = i -> exists ss, Forall2 (stands p) l ss /\ forall s, In s ss <-> from t i s).
  Proof.
    assert (Nx : forall t pre (f : sfield) fs, kindOf E t = Some (KStruct (pre ++ f :: fs)) -> kindOf E t = Some (KStruct ((pre ++ [f]) ++ fs))) by (intros; rewrite <- app_assoc; assumption).
    assert (Ln : forall pre (f : sfield), length (pre ++ [f]) = S (length pre)) by (intros; rewrite app_length; cbn; lia).
    assert (Fd : forall t pre f fs, kindOf E t = Some (KStruct (pre ++ f :: fs)) -> std_field E letter f).
    { intros t pre f fs K. pose proof (SF _ _ K) as F. rewrite Forall_forall in F. apply F, in_elt. }
    assert (Skip : forall t pre f fs (p : list Z) l ss, kindOf E t = Some (KStruct (pre ++ f :: fs)) -> (forall s, ~ at_field t (length pre) f s) -> Forall2 (stands p) l ss -> (forall s, In s ss <-> from t (S (length pre)) s) ->
      exists ss, Forall2 (stands p) l ss /\ forall s, In s ss <-> from t (length pre) s).
    { intros t pre f fs p l ss K N F H. exists ss. split; [exact F|]. intro s. rewrite (from_split t pre f fs s K), H. split; [auto|]. intros [A|A]; [destruct (N _ A)|exact A]. }
    assert (One : forall t pre f fs (p : list Z) key h tg l ss, kindOf E t = Some (KStruct (pre ++ f :: fs)) -> fcanset f = true -> parseField false (fname f) (ftag f) (flookup f (str "json")) = Some (key, h, tg) -> key <> str "-" ->
      (tg = true \/ forall u q, ~ embedded E f u q) -> Forall2 (stands p) l ss -> (forall s, In s ss <-> from t (S (length pre)) s) ->
      exists ss, Forall2 (stands p) (mkC key (p ++ [Z.of_nat (length pre)]) (ftype f) h :: l) ss /\ forall s, In s ss <-> from t (length pre) s).
    { intros t pre f fs p key h tg l ss K Cs Pf Nk Te F H. destruct (tag_read f (Fd _ _ _ _ K)) as [((h' & g & X) & _)|(name & ps & h' & g & X & Nn & Tg & Oh & Qs & Ga & Gn & Nb & Om)]; [congruence|].
      rewrite Pf in X. injection X as -> <- <-.
      exists (mkSF (match name with [] => fname f | _ => name end) [Z.of_nat (length pre)] (ftype f) (match name with [] => false | _ => true end) (OptSpec.has (str "omitempty") ps) (OptSpec.has (str "string") ps) :: ss). split.
      - constructor; [|exact F]. repeat split; cbn [ckey cindex ctype chints s_name s_path s_type s_omit s_quoted]; auto; try (apply Oh).
      - intro s. rewrite (from_split t pre f fs s K). cbn [In]. rewrite H. split.
        + intros [<-|A]; [left|auto]. assert (T0 : std_tag letter f name ps) by (apply Tg; auto). destruct name as [|c name]; [|apply af_named; auto; discriminate].
          apply af_plain; auto. destruct Te as [->|Te]; [|exact Te]. intros u q Em. inversion Em as [gs A|e gs A]; subst; apply (Ga eq_refl A); reflexivity.
        + intros [A|A]; [left|auto]. inversion A as [name' opts T1 _ Nn'|opts T1 _ Ne|opts u q c T1 Em Cu]; subst.
          * apply Tg in T1. destruct T1 as (-> & ->). destruct name as [|c name]; [congruence|reflexivity].
          * apply Tg in T1. destruct T1 as (<- & ->). reflexivity.
          * apply Tg in T1. destruct T1 as (<- & ->). exfalso. destruct Te as [->|Te]; [|eapply Te; exact Em]. inversion Em as [gs B|e gs B]; subst; apply (Ga eq_refl B); reflexivity. }
    assert (Deep : forall t pre f fs (p : list Z) key h u q l l' ss ss', kindOf E t = Some (KStruct (pre ++ f :: fs)) -> fcanset f = true -> parseField false (fname f) (ftag f) (flookup f (str "json")) = Some (key, h, false) -> key <> str "-" ->
      embedded E f u q -> Forall2 (stands (p ++ Z.of_nat (length pre) :: q)) l' ss' -> (forall s, In s ss' <-> candidate E letter u s) -> Forall2 (stands p) l ss -> (forall s, In s ss <-> from t (S (length pre)) s) ->
      exists ss, Forall2 (stands p) (l' ++ l) ss /\ forall s, In s ss <-> from t (length pre) s).
    { intros t pre f fs p key h u q l l' ss ss' K Cs Pf Nk Em F' H' F H. destruct (tag_read f (Fd _ _ _ _ K)) as [((h' & g & X) & _)|(name & ps & h' & g & X & Nn & Tg & Oh & Qs & Ga & Gn & Nb & Om)]; [congruence|].
      rewrite Pf in X. injection X as -> <- <-. assert (name = []) by (destruct name; [reflexivity|discriminate (Gn ltac:(discriminate))]). subst name.
      exists (map (under (Z.of_nat (length pre) :: q)) ss' ++ ss). split.
      - apply Forall2_app; [|exact F]. clear - F'. induction F' as [|c s l ss (A & B & C & O & Q & N & M) _ IH]; [constructor|]. constructor; [|exact IH].
        repeat split; cbn [under s_name s_path s_type s_omit s_quoted]; auto; try apply O. rewrite B, <- app_assoc. reflexivity.
      - intro s. rewrite (from_split t pre f fs s K), in_app_iff, H, in_map_iff. split.
        + intros [(c & <- & I)|A]; [left|auto]. apply H' in I. eapply af_deep; [apply Tg; auto|exact Em|exact I].
        + intros [A|A]; [left|auto]. inversion A as [name' opts T1 _ Nn'|opts T1 _ Ne|opts u' q' c T1 Em' Cu]; subst.
          * apply Tg in T1. destruct T1 as (-> & _). congruence.
          * destruct (Ne _ _ Em).
          * exists c. assert (u' = u /\ q' = q) as (-> & ->).
            { clear - Em Em'. destruct Em as [gs A K|e gs A K Ke], Em' as [gs' A' K'|e' gs' A' K' Ke']; try congruence; try (split; congruence). }
            split; [reflexivity|]. apply H'. exact Cu. }
    apply offers_mutind.
    - intros t p fs l K _ IH. destruct (IH t [] K eq_refl) as (ss & F & H). exists ss. split; [exact F|]. intro s. rewrite H. split; [intros (C & _); exact C|]. intro C. split; [exact C|].
      inversion C; subst; cbn [s_path under]; eexists; eexists; (split; [cbn; reflexivity|lia]).
    - intros p i t pre K L. exists []. split; [constructor|]. intro s. split; [intros []|]. intros (C & k & r & Pk & Le). rewrite app_nil_r in K.
      inversion C as [t' gs j g name opts K' N Tg Cs Nn|t' gs j g opts K' N Tg Cs Ne|t' gs j g opts u q c K' N Tg Em Cu]; subst; cbn [s_path under] in Pk; injection Pk as Pk; apply Nat2Z.inj in Pk; subst;
        rewrite K in K'; injection K' as <-; assert (Lt : k < length pre) by (apply nth_error_Some; rewrite N; discriminate); lia.
    - intros p i f fs l Hi _ IH t pre K <-. destruct (IH t (pre ++ [f]) (Nx _ _ _ _ K) (Ln _ _)) as (ss & F & H). eapply Skip; try eassumption. intros s A.
      pose proof (Fd _ _ _ _ K) as Sf. pose proof Sf as (Ne & _). destruct Hi as [Cs|(h & g & Pf)].
      + inversion A; subst; try congruence. eapply Ne; eassumption.
      + destruct (tag_read f Sf) as [(_ & Nt)|(name & ps & h' & g' & X & Nn & _)]; [inversion A; subst; eapply Nt; eassumption|]. cbn [oOmitEmpty oTag D] in Pf. change (oTag defaultOptions) with (str "json") in Pf. congruence.
    - intros p i f fs l key h tg Cs Pf Nk Ta _ IH t pre K <-. destruct (IH t (pre ++ [f]) (Nx _ _ _ _ K) (Ln _ _)) as (ss & F & H). eapply One; try eassumption.
      destruct Ta as [Ta|Ta]; [left; exact Ta|right]. intros u q Em. destruct Em; congruence.
    - intros p i f fs l key h idx Cs Pf Nk An Ns Np Hi _ IH t pre K <-. destruct (IH t (pre ++ [f]) (Nx _ _ _ _ K) (Ln _ _)) as (ss & F & H).
      assert (idx = p ++ [Z.of_nat (length pre)]).
      { rewrite Hi. destruct (kindOf E (ftype f)) as [[]|] eqn:Kf; auto. exfalso. destruct (ES t _ f e K ltac:(apply in_elt) An Kf) as (gs & Kg). exact (Np e gs eq_refl Kg). }
      clear Hi; subst idx. eapply One; try eassumption. right. intros u q Em. destruct Em as [gs A B|e gs A B C]; [exact (Ns _ B)|exact (Np _ _ B C)].
    - intros p i f fs l key h gs l' Cs Pf Nk An Kf _ IH' _ IH t pre K <-. destruct (IH t (pre ++ [f]) (Nx _ _ _ _ K) (Ln _ _)) as (ss & F & H). destruct IH' as (ss' & F' & H').
      eapply Deep; try eassumption. eapply eb_struct; eassumption.
    - intros p i f fs l key h e gs l' Cs Pf Nk An Kf Ke _ IH' _ IH t pre K <-. destruct (IH t (pre ++ [f]) (Nx _ _ _ _ K) (Ln _ _)) as (ss & F & H). destruct IH' as (ss' & F' & H').
      eapply Deep; try eassumption. eapply eb_ptr; eassumption.
  Qed.

  (* ---- which of them are kept ---- *)
  Lemma Forall2_In_l {A B} (R : A -> B -> Prop) l m x : Forall2 R l m -> In x l -> exists y, In y m /\ R x y.
  Proof. induction 1 as [|a b l m Rab F IH]; intros []; [subst; exists b; split; [left; reflexivity|exact Rab]|]. destruct (IH H) as (y & I & Y). exists y. split; [right; exact I|exact Y]. Qed.
  Lemma Forall2_In_r {A B} (R : A -> B -> Prop) l m y : Forall2 R l m -> In y m -> exists x, In x l /\ R x y.
  Proof. induction 1 as [|a b l m Rab F IH]; intros []; [subst; exists a; split; [left; reflexivity|exact Rab]|]. destruct (IH H) as (x & I & X). exists x. split; [right; exact I|exact X]. Qed.
  Lemma FOP_mid {A} (R : A -> A -> Prop) a x b : ForallOrdPairs R (a ++ x :: b) -> (forall y, In y a -> R y x) /\ (forall y, In y b -> R x y).
  Proof.
    induction a as [|z a IH]; cbn; intro F; inversion F as [|? ? Fz Fa]; subst.
    - split; [intros y []|]. rewrite Forall_forall in Fz. exact Fz.
    - destruct (IH Fa) as (A1 & A2). split; [|exact A2]. intros y [<-|I]; [|apply A1; exact I]. rewrite Forall_forall in Fz. apply Fz, in_elt.
  Qed.
  Lemma with_key_first k a c r : with_key k a = c :: r -> exists a1 a2, a = a1 ++ c :: a2 /\ ckey c = k /\ forall d, In d a1 -> ckey d <> k.
  Proof.
    induction a as [|x a IH]; cbn; [discriminate|]. destruct (bseqb (ckey x) k) eqn:B; intro W.
    - injection W as -> _. exists [], a. split; [reflexivity|]. split; [apply bseqb_true; exact B|intros d []].
    - destruct (IH W) as (a1 & a2 & -> & Kc & N). exists (x :: a1), a2. split; [reflexivity|]. split; [exact Kc|]. intros d [<-|I]; [intro X; apply bseqb_true in X; congruence|apply N; exact I].
  Qed.
  Lemma Forall2_app_l {A B} (R : A -> B -> Prop) l1 l2 m : Forall2 R (l1 ++ l2) m -> exists m1 m2, m = m1 ++ m2 /\ Forall2 R l1 m1 /\ Forall2 R l2 m2.
  Proof.
    revert m. induction l1 as [|x l1 IH]; cbn; intros m F; [exists [], m; auto|]. inversion F as [|? y ? m' Rxy F']; subst. destruct (IH _ F') as (m1 & m2 & -> & F1 & F2).
    exists (y :: m1), m2. split; [reflexivity|]. split; [constructor; assumption|exact F2].
  Qed.
  Lemma kept_std t a l cs : kept a l cs -> first_wins E letter t -> forall sa sl, Forall2 (stands []) a sa -> Forall2 (stands []) l sl -> (forall s, In s (sa ++ sl) <-> candidate E letter t s) ->
    ForallOrdPairs (fun s d => path_lt (s_path s) (s_path d)) (sa ++ sl) ->
    exists ss, Forall2 (stands []) cs ss /\ (forall s, In s ss <-> In s sl /\ dominant E letter t s) /\ subseq ss sl.
  Proof.
    intros K FW. induction K as [a|a c l cs H K IH|a c d r l cs W L K IH]; intros sa sl Fa Fl Hc Or.
    - inversion Fl; subst. exists []. split; [constructor|]. split; [|constructor]. intro s. split; [intros []|intros ([] & _)].
    - inversion Fl as [|? s ? sl' Sc Fl']; subst. assert (Ea : sa ++ s :: sl' = (sa ++ [s]) ++ sl') by (rewrite <- app_assoc; reflexivity). rewrite Ea in Hc, Or.
      destruct (IH (sa ++ [s]) sl' (Forall2_app Fa (Forall2_cons _ _ Sc (Forall2_nil _))) Fl' Hc Or) as (ss & F & Hs & Sb). rewrite <- Ea in Hc, Or. destruct (FOP_mid _ _ _ _ Or) as (B1 & B2).
      assert (Nk : forall e, In e sa -> s_name e <> s_name s).
      { intros e Ie Ne. destruct (with_key (ckey c) a) as [|d r] eqn:Wk.
        - destruct (Forall2_In_r _ _ _ _ Fa Ie) as (x & Ix & Sx). assert (X : In x (with_key (ckey c) a)). { unfold with_key. apply filter_In. split; [exact Ix|]. apply bseqb_true. destruct Sx as (-> & _). destruct Sc as (-> & _). exact Ne. }
          rewrite Wk in X. destruct X.
        - specialize (H _ _ eq_refl). destruct (with_key_first _ _ _ _ Wk) as (a1 & a2 & -> & Kd & Nd). destruct (Forall2_app_l _ _ _ _ Fa) as (s1 & s2 & -> & F1 & F2). inversion F2 as [|? sd ? s2' Sd F2']; subst.
          assert (In1 : In sd ((s1 ++ sd :: s2') ++ s :: sl')) by (apply in_or_app; left; apply in_elt). assert (In2 : In s ((s1 ++ sd :: s2') ++ s :: sl')) by apply in_elt.
          assert (Nm : s_name sd = s_name s) by (destruct Sd as (<- & _); destruct Sc as (<- & _); exact Kd).
          destruct (FW sd s (proj1 (Hc _) In1) (proj1 (Hc _) In2) Nm) as (_ & Ll).
          + apply B1. apply in_elt.
          + intros x Cx Nx Px. apply Hc in Cx. rewrite <- app_assoc in Cx, Or. cbn [app] in Cx, Or. destruct (FOP_mid _ _ _ _ Or) as (_ & B4). apply in_app_iff in Cx. destruct Cx as [Cx|[<-|Cx]].
            * destruct (Forall2_In_r _ _ _ _ F1 Cx) as (y & Iy & Sy). apply (Nd _ Iy). destruct Sy as (-> & _). rewrite Nx, Nm. destruct Sc as (<- & _). reflexivity.
            * exact (path_lt_irrefl _ Px).
            * exact (path_lt_asym _ _ (B4 _ Cx) Px).
          + destruct Sd as (_ & Id & _), Sc as (_ & Ic & _). cbn [app] in Id, Ic. rewrite Id, Ic in H. lia. }
      assert (Dm : dominant E letter t s).
      { split; [apply Hc, in_elt|]. intros e Ce Ne Pe. left. assert (Cs : candidate E letter t s) by apply Hc, in_elt. refine (proj1 (FW s e Cs Ce (eq_sym Ne) _ _)).
        - apply Hc in Ce. apply in_app_iff in Ce. destruct Ce as [Ce|[<-|Ce]]; [destruct (Nk _ Ce Ne)|congruence|apply B2; exact Ce].
        - intros x Cx Nx Px. apply Hc in Cx. apply in_app_iff in Cx. destruct Cx as [Cx|[<-|Cx]]; [exact (Nk _ Cx Nx)|exact (path_lt_irrefl _ Px)|exact (path_lt_asym _ _ (B2 _ Cx) Px)]. }
      exists (s :: ss). split; [constructor; assumption|]. split; [|constructor; exact Sb]. intro x. cbn [In]. rewrite Hs. split; [intros [<-|(A & B)]; auto|]. intros ([<-|A] & B); auto.
    - inversion Fl as [|? s ? sl' Sc Fl']; subst. assert (Ea : sa ++ s :: sl' = (sa ++ [s]) ++ sl') by (rewrite <- app_assoc; reflexivity). rewrite Ea in Hc, Or.
      destruct (IH (sa ++ [s]) sl' (Forall2_app Fa (Forall2_cons _ _ Sc (Forall2_nil _))) Fl' Hc Or) as (ss & F & Hs & Sb). rewrite <- Ea in Hc, Or. destruct (FOP_mid _ _ _ _ Or) as (B1 & B2).
      exists ss. split; [exact F|]. split; [|constructor; exact Sb]. intro x. rewrite Hs. split; [intros (A & B); split; [right; exact A|exact B]|]. intros ([<-|A] & B); [|auto]. exfalso.
      destruct (with_key_first _ _ _ _ W) as (a1 & a2 & -> & Kd & Nd). destruct (Forall2_app_l _ _ _ _ Fa) as (s1 & s2 & -> & F1 & F2). inversion F2 as [|? sd ? s2' Sd F2']; subst.
      assert (In1 : In sd ((s1 ++ sd :: s2') ++ s :: sl')) by (apply in_or_app; left; apply in_elt).
      assert (Nm : s_name sd = s_name s) by (destruct Sd as (<- & _); destruct Sc as (<- & _); exact Kd). assert (Lt : path_lt (s_path sd) (s_path s)) by (apply B1, in_elt).
      destruct (FW sd s (proj1 (Hc _) In1) (proj1 B) Nm Lt) as (Nl & _).
      + intros y Cy Ny Py. apply Hc in Cy. rewrite <- app_assoc in Cy, Or. cbn [app] in Cy, Or. destruct (FOP_mid _ _ _ _ Or) as (_ & B4). apply in_app_iff in Cy. destruct Cy as [Cy|[<-|Cy]].
        * destruct (Forall2_In_r _ _ _ _ F1 Cy) as (z & Iz & Sz). apply (Nd _ Iz). destruct Sz as (-> & _). rewrite Ny, Nm. destruct Sc as (<- & _). reflexivity.
        * exact (path_lt_irrefl _ Py).
        * exact (path_lt_asym _ _ (B4 _ Cy) Py).
      + destruct (proj2 B sd (proj1 (Hc _) In1) Nm) as [X|(X & _)]; [intro Ep; rewrite Ep in Lt; exact (path_lt_irrefl _ Lt)| |]; lia.
  Qed.
  Lemma FOP_subseq {A} (R : A -> A -> Prop) a b : subseq a b -> ForallOrdPairs R b -> ForallOrdPairs R a.
  Proof.
    induction 1 as [|x a b S IH|x a b S IH]; intro F; [constructor| |]; inversion F as [|? ? Fx Fb]; subst; [|apply IH; exact Fb]. constructor; [|apply IH; exact Fb].
    rewrite Forall_forall in *. intros y Iy. apply Fx. eapply subseq_In; eassumption.
  Qed.
  (* Enough for the first field of a name to be nested least. *)
  Lemma FOP_pick {A} (R : A -> A -> Prop) l : ForallOrdPairs R l -> forall x y, In x l -> In y l -> x = y \/ R x y \/ R y x.
  Proof. induction 1 as [|a l Fa F IH]; intros x y []; intros []; subst; auto; rewrite Forall_forall in Fa; auto. Qed.
  Lemma first_offers t l : offers E D t [] l -> ForallOrdPairs (fun c d => ckey c = ckey d -> length (filter (Z.leb 0) (cindex c)) < length (filter (Z.leb 0) (cindex d)) /\ length (cindex c) <= length (cindex d)) l -> first_wins E letter t.
  Proof.
    intros Of R s d Cs Cd Nm Lt _. destruct (proj1 offers_std _ _ _ Of) as (sl & Fl & Hl). destruct (proj1 (offers_paths E D) _ _ _ Of) as (P & _).
    assert (Q : ForallOrdPairs (fun c d => path_lt (cindex c) (cindex d) /\ (ckey c = ckey d -> length (filter (Z.leb 0) (cindex c)) < length (filter (Z.leb 0) (cindex d)) /\ length (cindex c) <= length (cindex d))) l).
    { clear - P R. apply FOP_map in P. induction P as [|a l Fa F IH]; [constructor|]. inversion R as [|? ? Ra Rl]; subst. constructor; [|apply IH; exact Rl]. rewrite Forall_forall in *. intros x I. split; [apply Fa|apply Ra]; exact I. }
    apply Hl in Cs, Cd. destruct (Forall2_In_r _ _ _ _ Fl Cs) as (c & Ic & (Kc & Pc & _)). destruct (Forall2_In_r _ _ _ _ Fl Cd) as (e & Ie & (Ke & Pe & _)). cbn [app] in Pc, Pe.
    unfold nesting. rewrite <- Pc, <- Pe in *. destruct (FOP_pick _ _ Q c e Ic Ie) as [->|[(_ & H)|(H & _)]]; [destruct (path_lt_irrefl _ Lt)|apply H; congruence|destruct (path_lt_asym _ _ Lt H)].
  Qed.
  Lemma fields_std t cs : first_wins E letter t -> struct_fields E D t cs -> exists ss, Forall2 (stands []) cs ss /\ std_fields E letter t ss.
  Proof.
    intros FW (l & Of & Kp). destruct (proj1 offers_std _ _ _ Of) as (sl & Fl & Hl).
    assert (Or : ForallOrdPairs (fun s d => path_lt (s_path s) (s_path d)) sl).
    { destruct (proj1 (offers_paths E D) _ _ _ Of) as (P & _). assert (Ep : map cindex l = map s_path sl) by (clear - Fl; induction Fl as [|c s l ss (_ & X & _) _ IH]; cbn; [reflexivity|]; f_equal; [exact X|exact IH]).
      rewrite Ep in P. apply FOP_map in P. exact P. }
    destruct (kept_std t [] l cs Kp FW [] sl (Forall2_nil _) Fl Hl Or) as (ss & F & Hs & Sb). exists ss. split; [exact F|]. split; [|eapply FOP_subseq; eassumption].
    intro s. rewrite Hs, Hl. split; [intros (_ & X); exact X|]. intro X. split; [exact (proj1 X)|exact X].
  Qed.
End Fields.
