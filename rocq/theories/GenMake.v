(* Proofs for C60: when the generator returns, when it makes code, and when Go accepts the code. *)
From Coq Require Import Permutation.
From Verif Require Import FloatSpec NumSpec FmtSpec StrSpec Bytes Types JsonSpec Parser Doc DocSpec Strjson Float Num Iface IfaceSpec Options Codec CodecSpec CodecMerge CodecBase DecodeSpec Gen GenSpec GoLitSpec GoLit GoLitThms.
Local Open Scope nat_scope.

(* ---- strings in order ---- *)
Lemma less_irrefl a : less a a = false.
Proof. induction a as [|x a IH]; cbn [less]; auto. rewrite N.ltb_irrefl. exact IH. Qed.
Lemma less_trans a : forall b c, less a b = false -> less b c = false -> less a c = false.
Proof.
  induction a as [|x a IH]; intros [|y b] [|z c]; cbn [less]; auto; try discriminate.
  destruct (N.ltb_spec (bN x) (bN y)); [discriminate|]. destruct (N.ltb_spec (bN y) (bN z)); [discriminate|].
  destruct (N.ltb_spec (bN y) (bN x)), (N.ltb_spec (bN z) (bN y)), (N.ltb_spec (bN x) (bN z)), (N.ltb_spec (bN z) (bN x)); intros; auto; try lia. eauto.
Qed.
Lemma less_asym a : forall b, less a b = true -> less b a = false.
Proof.
  induction a as [|x a IH]; intros [|y b]; cbn [less]; auto; try discriminate.
  destruct (N.ltb_spec (bN x) (bN y)), (N.ltb_spec (bN y) (bN x)); intros; auto; try lia; discriminate.
Qed.

(* ---- the fields written ---- *)
Definition named (G : gopts) (name : bytes) (f : mfield) : bool := match parseVar G f with Some (n, _) => bseqb n name | None => false end.
Lemma named_iff G name f : named G name f = true <-> exists ps, parseVar G f = Some (name, ps).
Proof.
  unfold named. destruct (parseVar G f) as [[n ps]|]; [|split; [discriminate|intros (? & ?); discriminate]]. split; [intro H; apply bseqb_true in H; subst; eauto|intros (q & H); injection H as -> _].
  apply bseqb_true. reflexivity.
Qed.
Lemma has_In s l : has s l = true <-> In s l.
Proof. unfold has. rewrite existsb_exists. split; [intros (x & I & H); apply bseqb_true in H; subst; exact I|intro I; exists s; split; auto; apply bseqb_true; reflexivity]. Qed.
Lemma insert_filter P f l : ForallOrdPairs (fun c d => less (mtag d) (mtag c) = false) l -> filter P (insert f l) = if P f then insert f (filter P l) else filter P l.
Proof.
  induction l as [|g l IH]; intro Sd; cbn [insert filter]; [destruct (P f); reflexivity|]. inversion Sd; subst. destruct (less (mtag g) (mtag f)) eqn:Lf; cbn [filter].
  - rewrite IH by assumption. destruct (P f), (P g); cbn [insert]; rewrite ?Lf; reflexivity.
  - destruct (P f) eqn:Pf; [|reflexivity]. destruct (P g) eqn:Pg; cbn [insert]; [rewrite Lf; reflexivity|].
    clear IH. destruct (filter P l) as [|h r] eqn:Fl; [reflexivity|]. cbn [insert]. assert (Ih : In h l) by (apply (proj1 (filter_In P h l)); rewrite Fl; left; reflexivity).
    rewrite Forall_forall in H1. specialize (H1 h Ih). rewrite (less_trans (mtag h) (mtag g) (mtag f)); auto.
Qed.
Lemma insert_In f l x : In x (insert f l) <-> x = f \/ In x l.
Proof. induction l as [|g l IH]; cbn [insert]; [cbn; intuition|]. destruct (less (mtag g) (mtag f)); cbn [In]; [rewrite IH|]; intuition. Qed.
Lemma insert_sorted f l : ForallOrdPairs (fun c d => less (mtag d) (mtag c) = false) l -> ForallOrdPairs (fun c d => less (mtag d) (mtag c) = false) (insert f l).
Proof.
  induction 1 as [|g l F Sd IH]; cbn [insert]; [repeat constructor|]. destruct (less (mtag g) (mtag f)) eqn:Lf.
  - constructor; [|exact IH]. apply Forall_forall. intros x Ix. apply insert_In in Ix as [->|Ix]; [apply less_asym; exact Lf|]. rewrite Forall_forall in F. auto.
  - constructor; [|constructor; assumption]. apply Forall_forall. intros x [<-|Ix]; [exact Lf|]. rewrite Forall_forall in F. eapply less_trans; [apply F; exact Ix|exact Lf].
Qed.
Lemma sortTags_sorted l : ForallOrdPairs (fun c d => less (mtag d) (mtag c) = false) (sortTags l).
Proof. induction l; cbn [sortTags]; [constructor|apply insert_sorted; assumption]. Qed.
Lemma sortTags_filter P l : filter P (sortTags l) = sortTags (filter P l).
Proof. induction l as [|f l IH]; cbn [sortTags filter]; [reflexivity|]. rewrite insert_filter by apply sortTags_sorted. rewrite IH. destruct (P f); reflexivity. Qed.
Lemma sortTags_In l x : In x (sortTags l) <-> In x l.
Proof. induction l; cbn [sortTags In]; [tauto|]. rewrite insert_In. intuition. Qed.

Definition best (l : list mfield) (f : mfield) : Prop :=
  exists a b, l = a ++ f :: b /\ (forall g, In g a -> less (mtag f) (mtag g) = true) /\ (forall g, In g b -> less (mtag g) (mtag f) = false).
Lemma split_cases {X} (a b c d : list X) x y : a ++ x :: b = c ++ y :: d -> (a = c /\ x = y /\ b = d) \/ (In x c /\ In y b) \/ (In y a /\ In x d).
Proof.
  revert c. induction a as [|p a IH]; intros [|q c] H; cbn [app] in H; injection H as -> H; subst.
  - left. auto.
  - right. left. split; [left; reflexivity|]. apply in_elt.
  - right. right. split; [left; reflexivity|]. apply in_elt.
  - destruct (IH c H) as [(-> & -> & ->)|[(A & B)|(A & B)]]; [left; auto|right; left|right; right]; split; auto; try (right; assumption).
Qed.
Lemma best_unique l f g : best l f -> best l g -> f = g.
Proof.
  intros (a & b & -> & A & B) (c & d & E & C & D). destruct (split_cases _ _ _ _ _ _ E) as [(_ & -> & _)|[(If & Ig)|(Ig & If)]]; auto.
  - specialize (C f If). rewrite (B g Ig) in C. discriminate.
  - specialize (A g Ig). rewrite (D f If) in A. discriminate.
Qed.
Lemma sort_head l f r : sortTags l = f :: r -> best l f.
Proof.
  revert f r. induction l as [|g l IH]; intros f r; cbn [sortTags]; [discriminate|]. destruct (sortTags l) as [|h s] eqn:Sl; cbn [insert].
  - intro H. injection H as <- <-. destruct l as [|x l]; [|exfalso; assert (I : In x (sortTags (x :: l))) by (apply sortTags_In; left; reflexivity); rewrite Sl in I; destruct I].
    exists [], []. split; [reflexivity|]. split; intros ? [].
  - destruct (less (mtag h) (mtag g)) eqn:Lh; intro H; injection H as <- <-.
    + destruct (IH h s eq_refl) as (a & b & -> & A & B). exists (g :: a), b. split; [reflexivity|]. split; [|exact B]. intros x [<-|Ix]; auto.
    + exists [], l. split; [reflexivity|]. split; [intros ? []|]. intros x Ix. apply sortTags_In in Ix. pose proof (sortTags_sorted l) as Sd. rewrite Sl in *. inversion Sd; subst. destruct Ix as [<-|Ix]; [exact Lh|].
      rewrite Forall_forall in H1. eapply less_trans; [apply H1; exact Ix|exact Lh].
Qed.
Lemma best_sort l f : best l f -> exists r, sortTags l = f :: r.
Proof.
  intro B. destruct (sortTags l) as [|g r] eqn:Sl.
  - destruct B as (a & b & -> & _). exfalso. assert (I : In f (sortTags (a ++ f :: b))) by (apply sortTags_In; apply in_elt). rewrite Sl in I. destruct I.
  - rewrite (best_unique _ _ _ B (sort_head _ _ _ Sl)). eauto.
Qed.
Lemma filter_split {X} (P : X -> bool) l f : forall a b, filter P l = a ++ f :: b -> exists a' b', l = a' ++ f :: b' /\ filter P a' = a /\ filter P b' = b.
Proof.
  induction l as [|x l IH]; intros a b H; cbn [filter] in H; [destruct a; discriminate|]. destruct (P x) eqn:Px.
  - destruct a as [|y a]; cbn [app] in H; injection H as -> H; [exists [], l; auto|]. destruct (IH _ _ H) as (a' & b' & -> & A & B). exists (y :: a'), b'. cbn [filter app]. rewrite Px, A. auto.
  - destruct (IH _ _ H) as (a' & b' & -> & A & B). exists (x :: a'), b'. cbn [filter app]. rewrite Px. auto.
Qed.
Lemma leads_best G l name params f : leads G l name params f <-> parseVar G f = Some (name, params) /\ best (filter (named G name) l) f.
Proof.
  split.
  - intros (a & b & -> & P & A & B). split; auto. assert (Nf : named G name f = true) by (apply named_iff; eauto). exists (filter (named G name) a), (filter (named G name) b). rewrite filter_app. cbn [filter]. rewrite Nf. split; [reflexivity|].
    split; intros g Ig; apply filter_In in Ig as [Ig Ng]; apply named_iff in Ng as (ps & Pg); eauto.
  - intros (P & a & b & E & A & B). destruct (filter_split _ _ _ _ _ E) as (a' & b' & -> & <- & <-). exists a', b'. split; auto. split; auto.
    split; intros g ps Ig Pg; [apply A|apply B]; apply filter_In; (split; [exact Ig|apply named_iff; eauto]).
Qed.
Lemma chosen_In G name params f : forall l used, In (name, params, f) (chosen G used l) <-> ~ In name used /\ parseVar G f = Some (name, params) /\ exists r, filter (named G name) l = f :: r.
Proof.
  induction l as [|g l IH]; intro used; cbn [chosen filter]; [split; [intros []|intros (_ & _ & r & H); discriminate]|].
  destruct (parseVar G g) as [[n ps]|] eqn:Pg.
  - destruct (has n used) eqn:Hn.
    + rewrite IH. apply has_In in Hn. destruct (named G name g) eqn:Ng; [|reflexivity]. apply named_iff in Ng as (q & Q). rewrite Pg in Q. injection Q as -> ->. split; intros (U & _); contradiction.
    + assert (Nn : ~ In n used) by (intro Q; apply has_In in Q; congruence). cbn [In]. rewrite IH. cbn [In]. destruct (named G name g) eqn:Ng.
      * apply named_iff in Ng as (q & Q). rewrite Pg in Q. injection Q as -> ->. split.
        -- intros [Q|(U & _)]; [injection Q as -> ->; split; auto; split; eauto|exfalso; apply U; left; reflexivity].
        -- intros (U & Pf & r & Q). injection Q as -> _. rewrite Pg in Pf. injection Pf as ->. left. reflexivity.
      * assert (Nm : n <> name) by (intros ->; assert (named G name g = true) by (apply named_iff; eauto); congruence). split.
        -- intros [Q|(U & H)]; [injection Q as ? _ _; contradiction|]. split; [|exact H]. intro Q. apply U. right. exact Q.
        -- intros (U & H). right. split; [|exact H]. intros [Q|Q]; contradiction.
  - rewrite IH. destruct (named G name g) eqn:Ng; [apply named_iff in Ng as (q & Q); congruence|reflexivity].
Qed.
Lemma chosen_names G : forall l used, NoDup (map (fun c => fst (fst c)) (chosen G used l)) /\ forall n, In n (map (fun c => fst (fst c)) (chosen G used l)) -> ~ In n used.
Proof.
  induction l as [|g l IH]; intro used; cbn [chosen]; [split; [constructor|intros ? []]|]. destruct (parseVar G g) as [[n ps]|]; [|apply IH]. destruct (has n used) eqn:Hn; [apply IH|].
  destruct (IH (n :: used)) as (Nd & Ni). cbn [map fst]. split.
  - constructor; [|exact Nd]. intro I. apply (Ni n I). left. reflexivity.
  - intros m [<-|I]; [intro Q; apply has_In in Q; congruence|]. intro Q. apply (Ni m I). right. exact Q.
Qed.
Lemma chosen_sorted G (R : mfield -> mfield -> Prop) : forall l used, ForallOrdPairs R l -> ForallOrdPairs (fun c d => R (snd c) (snd d)) (chosen G used l).
Proof.
  induction l as [|g l IH]; intros used Sd; cbn [chosen]; [constructor|]. inversion Sd; subst. destruct (parseVar G g) as [[n ps]|]; [|auto]. destruct (has n used); [auto|].
  constructor; [|auto]. apply Forall_forall. intros [[m qs] f] I. cbn [snd]. apply chosen_In in I as (_ & _ & r & F). rewrite Forall_forall in H1. apply H1. apply (proj1 (filter_In (named G m) f l)). rewrite F. left. reflexivity.
Qed.
Lemma chosen_order G l : in_order G l (chosen G [] (sortTags l)).
Proof.
  split; [|split; [apply chosen_names|exact (chosen_sorted G (fun c d => less (mtag d) (mtag c) = false) _ _ (sortTags_sorted l))]]. intros name params f. rewrite chosen_In, leads_best, sortTags_filter. split.
  - intros (_ & P & r & S). split; auto. exact (sort_head _ _ _ S).
  - intros (P & B). split; [intros []|]. split; auto. apply best_sort. exact B.
Qed.

(* ---- termination ---- *)
Lemma gstar_trans {A} (R : A -> A -> Prop) a b c : star R a b -> star R b c -> star R a c.
Proof. induction 1; auto. intro. econstructor; eauto. Qed.
Lemma gstar_snoc {A} (R : A -> A -> Prop) a b c : star R a b -> R b c -> star R a c.
Proof. intros. eapply gstar_trans; [eassumption|]. econstructor; [eassumption|constructor]. Qed.
Lemma loops_step {A} (R : A -> A -> Prop) a : loops R a -> exists b, R a b /\ loops R b.
Proof. intros (u & v & Sr & M & B). inversion Sr as [x|x y z Mx Sx]; subst; [exists v|exists y]; (split; [assumption|]); [exists u, v|exists u, v]; auto. Qed.
Inductive run {A} (R : A -> A -> Prop) : A -> list A -> Prop :=
| run_nil t : run R t []
| run_cons t u l : R t u -> run R u l -> run R t (u :: l).
Lemma run_app {A} (R : A -> A -> Prop) l1 a l2 : forall t, run R t (l1 ++ a :: l2) -> exists v, star R t v /\ R v a /\ run R a l2.
Proof.
  induction l1 as [|x l1 IH]; intros t C; cbn [app] in C; inversion C; subst; [exists t; split; [constructor|auto]|]. destruct (IH _ H3) as (v & Sv & M & C').
  exists v. split; auto. econstructor; eassumption.
Qed.
Lemma run_loops (R : nat -> nat -> Prop) n t l : (forall a b, R a b -> b < n) -> t < n -> run R t l -> length l = n -> loops R t.
Proof.
  intros W Lt C L. assert (F : forall x, In x l -> x < n).
  { clear L. induction C; intros x Ix; [destruct Ix|]. destruct Ix as [<-|Ix]; [eapply W; eassumption|apply IHC; [eapply W; eassumption|exact Ix]]. }
  assert (D : ~ NoDup (t :: l)).
  { intro N. assert (I : incl (t :: l) (seq 0 n)) by (intros x [<-|Ix]; apply in_seq; [lia|specialize (F x Ix); lia]).
    pose proof (NoDup_incl_length N I) as Q. rewrite seq_length in Q. cbn [length] in Q. lia. }
  apply dup_split in D. destruct D as (a & l1 & l2 & l3 & D). destruct l1 as [|x l1]; cbn in D; injection D as -> ->.
  - destruct (run_app R l2 a l3 _ C) as (v & S1 & M & _). inversion S1 as [y|y z w M1 S2]; subst.
    + do 2 eexists. split; [constructor|split; [exact M|constructor]].
    + do 2 eexists. split; [constructor|split; [exact M1|eapply gstar_snoc; eassumption]].
  - destruct (run_app R l1 a _ _ C) as (v & S1 & M & C1). destruct (run_app R l2 a l3 _ C1) as (v2 & S2 & M2 & _). inversion S2 as [y|y z w M1 S3]; subst.
    + do 2 eexists. split; [eapply gstar_snoc; eassumption|split; [exact M2|constructor]].
    + do 2 eexists. split; [eapply gstar_snoc; eassumption|split; [exact M1|eapply gstar_snoc; eassumption]].
Qed.

Section Append.
  Variables (E : env) (G : gopts) (M : genv).
  Lemma marshals_cases (m : mset) : isAppender m = true \/ isAppender m = false /\ isJSON m = true \/ isAppender m = false /\ isJSON m = false /\ isText m = true \/ no_marshaler m.
  Proof. unfold no_marshaler. destruct (isAppender m), (isJSON m), (isText m); intuition. Qed.
  Lemma appendFields_cases gen : forall cs, (forall name params f, In (name, params, f) cs -> gen (mtype f) (has rawParam params) <> Panic) ->
    match appendFields gen E G cs with
    | Panic => False
    | Diverge => exists name params f, In (name, params, f) cs /\ gen (mtype f) (has rawParam params) = Diverge
    | Ok r => (forall name params f, In (name, params, f) cs -> exists c, gen (mtype f) (has rawParam params) = Ok c) /\
        (r = None <-> exists name params f, In (name, params, f) cs /\ (gen (mtype f) (has rawParam params) = Ok None \/ In omitEmpty params /\ typeOmiter E G (mtype f) = None))
    end.
  Proof.
    induction cs as [|[[name params] f] cs IH]; intro Np; cbn [appendFields].
    { split; [intros ? ? ? []|]. split; [discriminate|intros (? & ? & ? & [] & _)]. }
    pose proof (Np name params f (or_introl eq_refl)) as N0. destruct (gen (mtype f) (has rawParam params)) as [c| |] eqn:Gf; cbn [bind]; [|congruence|exists name, params, f; split; [left; reflexivity|exact Gf]].
    assert (IH' := IH ltac:(intros; apply (Np name0 params0 f0); right; assumption)). destruct (appendFields gen E G cs) as [r| |]; cbn [bind]; [|contradiction|].
    - destruct IH' as (H1 & H2). split; [intros n p g [Q|I]; [injection Q as <- <- <-; eauto|eauto]|].
      set (om := if has omitEmpty params then typeOmiter E G (mtype f) else Some None). assert (Om : om = None <-> In omitEmpty params /\ typeOmiter E G (mtype f) = None).
      { unfold om. destruct (has omitEmpty params) eqn:Ho; [apply has_In in Ho; tauto|]. split; [discriminate|intros (Q & _); apply has_In in Q; congruence]. }
      destruct c as [c|]; [|split; auto; intros _; exists name, params, f; split; [left; reflexivity|auto]]. destruct om as [o|] eqn:Eo; [|split; auto; intros _; exists name, params, f; split; [left; reflexivity|right; apply Om; reflexivity]].
      destruct r as [r|].
      + split; [discriminate|]. intros (n & p & g & [Q|I] & H); [injection Q as <- <- <-; destruct H as [H|H]; [congruence|apply Om in H; discriminate]|].
        exfalso. assert (Q : Some r = None) by (apply H2; eauto). discriminate.
      + split; auto. intros _. destruct (proj1 H2 eq_refl) as (n & p & g & I & H). exists n, p, g. split; [right; exact I|exact H].
    - destruct IH' as (n & p & g & I & H). exists n, p, g. split; [right; exact I|exact H].
  Qed.
  (* The code for the fields. *)
  Inductive coded (gen : tid -> bool -> res (option acode)) : list (bytes * list bytes * mfield) -> afields -> Prop :=
  | co_nil : coded gen [] ANil
  | co_cons name params f cs o c r : gen (mtype f) (has rawParam params) = Ok (Some c) -> (if has omitEmpty params then typeOmiter E G (mtype f) else Some None) = Some o -> coded gen cs r ->
      coded gen ((name, params, f) :: cs) (ACons name (mpath f) o c r).
  Lemma appendFields_coded gen : forall cs fs, appendFields gen E G cs = Ok (Some fs) -> coded gen cs fs.
  Proof.
    induction cs as [|[[name params] f] cs IH]; intros fs H; cbn [appendFields] in H; [injection H as <-; constructor|].
    destruct (gen (mtype f) (has rawParam params)) as [c| |] eqn:Gf; try discriminate. cbn [bind] in H. destruct (appendFields gen E G cs) as [r| |]; try discriminate. cbn [bind] in H.
    destruct c as [c|]; [|discriminate]. destruct (if has omitEmpty params then typeOmiter E G (mtype f) else Some None) as [o|] eqn:Eo; [|discriminate]. destruct r as [r|]; [|discriminate]. injection H as <-. constructor; auto.
  Qed.
  Lemma typeAppender_S k t raw : typeAppender (S k) E G M t raw =
    match typeOf E t with
    | None => Ok None
    | Some T =>
      if isAppender (tmeth T) then Ok (Some (AAppender t))
      else if isJSON (tmeth T) then Ok (Some (AMarshaler t))
      else if isText (tmeth T) then Ok (Some (AText t))
      else
      match tkind T with
      | KPtr e => let! c := typeAppender k E G M e raw in Ok (option_map APtr c)
      | KMap kt e =>
          let! ck := typeAppender k E G M kt false in
          let! c := typeAppender k E G M e raw in
          Ok match ck, c with Some ck, Some c => Some (AMap ck c) | _, _ => None end
      | KSlice e => let! c := typeAppender k E G M e raw in Ok (option_map ASlice c)
      | KStruct _ => let! fs := appendFields (typeAppender k E G M) E G (chosen G [] (sortTags (fieldsOf M t))) in Ok (option_map AStruct fs)
      | KBool => Ok (Some ABool)
      | KString => Ok (Some (if raw then ARaw else AString (t =? tString)%nat))
      | KFloat32 | KFloat64 => Ok (Some AFloat)
      | KUint _ => Ok (Some AUint)
      | KInt _ => Ok (Some AInt)
      | KIface false => Ok (Some AIface)
      | KIface true | KArray _ _ | KOther => Ok None
      end
    end.
  Proof. reflexivity. Qed.
  Lemma typeAppender_nopanic : forall fuel t raw, typeAppender fuel E G M t raw <> Panic.
  Proof.
    induction fuel as [|k IH]; intros t raw; cbn [typeAppender]; [discriminate|]. destruct (typeOf E t) as [T|]; [|discriminate].
    destruct (isAppender (tmeth T)); [discriminate|]. destruct (isJSON (tmeth T)); [discriminate|]. destruct (isText (tmeth T)); [discriminate|].
    destruct (tkind T) as [| | | | | |[]|e|e| |kt e|fs|]; try discriminate.
    - specialize (IH e raw). destruct (typeAppender k E G M e raw); cbn [bind]; congruence.
    - specialize (IH e raw). destruct (typeAppender k E G M e raw); cbn [bind]; congruence.
    - pose proof (IH kt false) as I1. destruct (typeAppender k E G M kt false); cbn [bind]; try congruence. specialize (IH e raw). destruct (typeAppender k E G M e raw); cbn [bind]; congruence.
    - pose proof (appendFields_cases (typeAppender k E G M) (chosen G [] (sortTags (fieldsOf M t)))) as A. destruct (appendFields (typeAppender k E G M) E G (chosen G [] (sortTags (fieldsOf M t)))); cbn [bind]; try discriminate. exfalso. apply A. intros. apply IH.
  Qed.
  Lemma typeAppender_run : forall fuel t raw, typeAppender (S fuel) E G M t raw = Diverge -> exists l, length l = fuel /\ run (needs_t E G M) t l.
  Proof.
    induction fuel as [|k IH]; intros t raw H; [exists []; split; [reflexivity|constructor]|]. rewrite typeAppender_S in H. destruct (typeOf E t) as [T|] eqn:ET; [|discriminate].
    destruct (marshals_cases (tmeth T)) as [Q|[(Q & Q')|[(Q & Q' & Q'')|Nm]]]; rewrite ?Q, ?Q', ?Q'' in H; try discriminate. pose proof Nm as (Q & Q' & Q''). rewrite Q, Q', Q'' in H.
    assert (Step : forall u r, needs E G M (t, raw) (u, r) -> typeAppender (S k) E G M u r = Diverge -> exists l, length l = S k /\ run (needs_t E G M) t l).
    { intros u r N D. destruct (IH u r D) as (l & L & C). exists (u :: l). split; [cbn; congruence|]. constructor; [exists raw, r; exact N|exact C]. }
    assert (Part : forall p, In p (parts (tkind T) raw) -> needs E G M (t, raw) p) by (intros p Ip; econstructor; eassumption).
    destruct (tkind T) as [| | | | | |[]|e|e| |kt e|fs|] eqn:K; try discriminate.
    - apply (Step e raw); [apply Part; left; reflexivity|]. destruct (typeAppender (S k) E G M e raw) eqn:D; cbn [bind] in H; congruence.
    - apply (Step e raw); [apply Part; left; reflexivity|]. destruct (typeAppender (S k) E G M e raw) eqn:D; cbn [bind] in H; congruence.
    - destruct (typeAppender (S k) E G M kt false) eqn:D1; [|exfalso; exact (typeAppender_nopanic _ _ _ D1)|apply (Step kt false); [apply Part; left; reflexivity|exact D1]].
      apply (Step e raw); [apply Part; right; left; reflexivity|]. destruct (typeAppender (S k) E G M e raw) eqn:D; cbn [bind] in H; congruence.
    - pose proof (appendFields_cases (typeAppender (S k) E G M) (chosen G [] (sortTags (fieldsOf M t))) ltac:(intros; apply typeAppender_nopanic)) as A.
      destruct (appendFields (typeAppender (S k) E G M) E G (chosen G [] (sortTags (fieldsOf M t)))) eqn:AF; [|contradiction|].
      + discriminate H.
      + destruct A as (name & params & f & I & D). apply chosen_order in I. apply (Step (mtype f) (has rawParam params)); [econstructor; eassumption|exact D].
  Qed.

  Lemma typeAppender_loops : forall fuel t raw, loops (needs_t E G M) t -> typeAppender fuel E G M t raw = Diverge.
  Proof.
    induction fuel as [|k IH]; intros t raw L; [reflexivity|]. destruct (loops_step _ _ L) as (u & (r & r' & N) & Lu). rewrite typeAppender_S. inversion N as [t0 raw0 T p0 ET Nm H4|t0 raw0 T fs name params f ET Nm K Ld]; subst.
    - rewrite ET. pose proof Nm as (-> & -> & ->). destruct (tkind T) as [| | | | | |[]|e|e| |kt e|fs|]; cbn [parts In] in H4; try contradiction.
      + destruct H4 as [Q|[]]. injection Q as -> <-. rewrite IH by exact Lu. reflexivity.
      + destruct H4 as [Q|[]]. injection Q as -> <-. rewrite IH by exact Lu. reflexivity.
      + destruct H4 as [Q|[Q|[]]]; injection Q as -> <-; [rewrite IH by exact Lu; reflexivity|]. pose proof (typeAppender_nopanic k kt false). destruct (typeAppender k E G M kt false); cbn [bind]; try congruence. rewrite IH by exact Lu. reflexivity.
    - rewrite ET. pose proof Nm as (-> & -> & ->). rewrite K. apply chosen_order in Ld.
      pose proof (appendFields_cases (typeAppender k E G M) (chosen G [] (sortTags (fieldsOf M t))) ltac:(intros; apply typeAppender_nopanic)) as A.
      destruct (appendFields (typeAppender k E G M) E G (chosen G [] (sortTags (fieldsOf M t)))); [|contradiction|reflexivity].
      destruct A as (A & _). destruct (A _ _ _ Ld) as (c & Q). rewrite IH in Q by exact Lu. discriminate.
  Qed.
  Lemma typeOmiter_none t : t < length (types E) -> (typeOmiter E G t = None <-> (exists gs, kindOf E t = Some (KStruct gs)) /\ ~ tells E G t).
  Proof.
    intro Lt. unfold typeOmiter, tells, kindOf. apply nth_error_Some in Lt. unfold typeOf in *. destruct (nth_error (types E) t) as [T|]; [|congruence]. cbn [option_map].
    destruct (hasOmit (tmeth T) (gOmit G)) eqn:H.
    - split; [discriminate|]. intros (_ & Q). exfalso. apply Q. eauto.
    - assert (Q : ~ (exists T0, Some T = Some T0 /\ hasOmit (tmeth T0) (gOmit G) = true)) by (intros (X & E1 & E2); injection E1 as <-; congruence).
      destruct (tkind T) as [| | | | | |[]|e|e| |kt e|fs|]; split; try discriminate; try (intros ((gs & E1) & _); discriminate E1); auto. intros _. split; eauto.
  Qed.
  Lemma shape_struct fuel t raw c T : typeAppender fuel E G M t raw = Ok (Some c) -> typeOf E t = Some T ->
    ((exists fs, c = AStruct fs) <-> no_marshaler (tmeth T) /\ exists fs, tkind T = KStruct fs).
  Proof.
    destruct fuel as [|k]; [discriminate|]. rewrite typeAppender_S. intros H ET. rewrite ET in H. unfold no_marshaler.
    destruct (isAppender (tmeth T)); [injection H as <-; split; [intros (? & ?); discriminate|intros ((? & _) & _); discriminate]|].
    destruct (isJSON (tmeth T)); [injection H as <-; split; [intros (? & ?); discriminate|intros ((_ & ? & _) & _); discriminate]|].
    destruct (isText (tmeth T)); [injection H as <-; split; [intros (? & ?); discriminate|intros ((_ & _ & ?) & _); discriminate]|].
    destruct (tkind T) as [| | | | | |[]|e|e| |kt e|fs|]; try discriminate; try (injection H as <-; split; [intros (? & Q); first [discriminate Q|destruct raw; discriminate Q]|intros (_ & ? & ?); discriminate]).
    - destruct (typeAppender k E G M e raw) as [[c'|]| |]; try discriminate. injection H as <-. split; [intros (? & Q); discriminate|intros (_ & ? & ?); discriminate].
    - destruct (typeAppender k E G M e raw) as [[c'|]| |]; try discriminate. injection H as <-. split; [intros (? & Q); discriminate|intros (_ & ? & ?); discriminate].
    - destruct (typeAppender k E G M kt false) as [[c1|]| |]; try discriminate; destruct (typeAppender k E G M e raw) as [[c'|]| |]; try discriminate. injection H as <-. split; [intros (? & Q); discriminate|intros (_ & ? & ?); discriminate].
    - destruct (appendFields (typeAppender k E G M) E G (chosen G [] (sortTags (fieldsOf M t)))) as [[r|]| |]; try discriminate. injection H as <-. split; eauto 6.
  Qed.
  Lemma struct_code fuel t raw fs : typeAppender fuel E G M t raw = Ok (Some (AStruct fs)) -> exists k, fuel = S k /\ coded (typeAppender k E G M) (chosen G [] (sortTags (fieldsOf M t))) fs.
  Proof.
    destruct fuel as [|k]; [discriminate|]. rewrite typeAppender_S. intros H. destruct (typeOf E t) as [T|]; [|discriminate]. exists k. split; [reflexivity|].
    destruct (isAppender (tmeth T)); [discriminate|]. destruct (isJSON (tmeth T)); [discriminate|]. destruct (isText (tmeth T)); [discriminate|].
    destruct (tkind T) as [| | | | | |[]|e|e| |kt e|l|]; try discriminate; try (destruct raw; discriminate).
    - destruct (typeAppender k E G M e raw) as [[c'|]| |]; discriminate.
    - destruct (typeAppender k E G M e raw) as [[c'|]| |]; discriminate.
    - destruct (typeAppender k E G M kt false) as [[c1|]| |]; try discriminate; destruct (typeAppender k E G M e raw) as [[c'|]| |]; discriminate.
    - destruct (appendFields (typeAppender k E G M) E G (chosen G [] (sortTags (fieldsOf M t)))) as [[r|]| |] eqn:A; try discriminate. injection H as <-. apply appendFields_coded. exact A.
  Qed.
  Lemma usesV_hollow fuel t raw c : typeAppender fuel E G M t raw = Ok (Some c) -> (usesV c = false <-> hollow E G M t).
  Proof.
    intro H. assert (exists T, typeOf E t = Some T) as (T & ET) by (destruct fuel; [discriminate|]; rewrite typeAppender_S in H; destruct (typeOf E t); [eauto|discriminate]).
    pose proof (shape_struct _ _ _ _ _ H ET) as (A & B). split.
    - intro U. destruct c as [| | | | | |[|]| | | | | | |]; try discriminate. destruct (A (ex_intro _ _ eq_refl)) as (Nm & l & K). destruct (struct_code _ _ _ _ H) as (k & -> & C). exists T, l. split; auto. split; auto. split; auto.
      intros name params f Ld. apply chosen_order in Ld. inversion C as [E1|]. rewrite <- E1 in Ld. destruct Ld.
    - intros (T' & fs & ET' & Nm & K & N). rewrite ET in ET'. injection ET' as <-. destruct (B (conj Nm (ex_intro _ _ K))) as (r & ->). destruct (struct_code _ _ _ _ H) as (k & -> & C).
      inversion C as [E1|name params f cs o c r' Gc Ho C' E1]; subst; [reflexivity|]. exfalso. apply (N name params f). apply chosen_order. rewrite <- E1. left. reflexivity.
  Qed.
  Lemma usesV_true fuel t raw c : typeAppender fuel E G M t raw = Ok (Some c) -> (usesV c = true <-> ~ hollow E G M t).
  Proof. intro H. rewrite <- (usesV_hollow _ _ _ _ H). destruct (usesV c); split; congruence. Qed.
  Lemma onlyNil_ptr : forall fuel t raw c, typeAppender fuel E G M t raw = Ok (Some c) -> ((exists c', c = APtr c' /\ onlyNil c' = true) <-> hollow_ptr E G M t).
  Proof.
    induction fuel as [|k IH]; intros t raw c H; [discriminate|]. pose proof H as H0. rewrite typeAppender_S in H. destruct (typeOf E t) as [T|] eqn:ET; [|discriminate].
    assert (Hp : hollow_ptr E G M t <-> no_marshaler (tmeth T) /\ exists e, tkind T = KPtr e /\ (hollow E G M e \/ hollow_ptr E G M e)).
    { split.
      - intro Hp. inversion Hp as [? T' e' ET' Nm K Q|? T' e' ET' Nm K Q]; subst; assert (T' = T) as -> by congruence; split; eauto.
      - intros (Nm & e & K & [Q|Q]); [eapply hp_last|eapply hp_ptr]; eauto. }
    rewrite Hp. clear Hp. destruct (marshals_cases (tmeth T)) as [Q|[(Q & Q')|[(Q & Q' & Q'')|Nm]]]; rewrite ?Q, ?Q', ?Q'' in H;
      try (injection H as <-; split; [intros (? & ? & _); discriminate|intros ((N1 & N2 & N3) & _); congruence]).
    pose proof Nm as (Q & Q' & Q''). rewrite Q, Q', Q'' in H.
    assert (Other : forall x, Some c = x -> (forall e, tkind T <> KPtr e) -> (forall c', x <> Some (APtr c')) -> (exists c', c = APtr c' /\ onlyNil c' = true) <-> no_marshaler (tmeth T) /\ exists e, tkind T = KPtr e /\ (hollow E G M e \/ hollow_ptr E G M e)).
    { intros x <- N1 N2. split; [intros (c' & -> & _); destruct (N2 c' eq_refl)|intros (_ & e & K & _); destruct (N1 e K)]. }
    destruct (tkind T) as [| | | | | |[]|e|e| |kt e|fs|] eqn:K; try discriminate; try (injection H as H; eapply Other; [exact (f_equal Some (eq_sym H))|discriminate|intros c' X; discriminate X || (destruct raw; discriminate X)]).
    - destruct (typeAppender k E G M e raw) as [[c'|]| |] eqn:D; try discriminate. injection H as <-. specialize (IH _ _ _ D). pose proof (usesV_hollow _ _ _ _ D) as Uh. split.
      + intros (c1 & X & O). injection X as <-. split; auto. exists e. split; auto. destruct c' as [| | |c2| | |[|]| | | | | | |]; try discriminate; [right; apply IH; eauto|left; apply Uh; reflexivity].
      + intros (_ & e' & X & Ho). injection X as <-. exists c'. split; auto. destruct Ho as [Ho|Ho]; [apply Uh in Ho; destruct c' as [| | | | | |[|]| | | | | | |]; try discriminate; reflexivity|apply IH in Ho as (c2 & -> & O); exact O].
    - destruct (typeAppender k E G M e raw) as [[c'|]| |]; try discriminate. injection H as H. eapply Other; [exact (f_equal Some (eq_sym H))|discriminate|discriminate].
    - destruct (typeAppender k E G M kt false) as [[c1|]| |]; try discriminate; destruct (typeAppender k E G M e raw) as [[c2|]| |]; try discriminate. injection H as H. eapply Other; [exact (f_equal Some (eq_sym H))|discriminate|discriminate].
    - destruct (appendFields (typeAppender k E G M) E G (chosen G [] (sortTags (fieldsOf M t)))) as [[r|]| |]; try discriminate. injection H as H. eapply Other; [exact (f_equal Some (eq_sym H))|discriminate|discriminate].
  Qed.
  Lemma typeOmiter_cond params t o : t < length (types E) -> (if has omitEmpty params then typeOmiter E G t else Some None) = Some o -> ((exists x, o = Some x) <-> conditional E G params t).
  Proof.
    intros Lt H. unfold conditional, tells, kindOf. destruct (has omitEmpty params) eqn:Ho.
    - apply has_In in Ho. unfold typeOmiter in H. apply nth_error_Some in Lt. unfold typeOf in *. destruct (nth_error (types E) t) as [T|]; [clear Lt|congruence]. cbn [option_map]. destruct (hasOmit (tmeth T) (gOmit G)) eqn:Hm.
      + injection H as <-. split; [|eauto]. intros _. split; auto. left. eauto.
      + destruct (tkind T) as [| | | | | |[]|e|e| |kt e|fs|] eqn:K; try discriminate; injection H as <-; (split; [intros (x & Q); first [discriminate Q|split; [exact Ho|]; right; eexists; split; [reflexivity|exact Logic.I]]|]);
        try (intros _; eexists; reflexivity); (intros (_ & [(X & E1 & E2)|(kd & E1 & E2)]); [injection E1 as <-; congruence|injection E1 as <-; contradiction]).
    - injection H as <-. split; [intros (x & Q); discriminate|]. intros (Q & _). apply has_In in Q. congruence.
  Qed.
  Hypothesis W : wf_types E.
  Hypothesis P : paths_ok E M.
  Lemma walks_lt t p u : walks E t p u -> t < length (types E) -> u < length (types E).
  Proof. destruct W as (R & _). induction 1; intros; auto; apply IHwalks; eapply R; try eassumption; [cbn; apply in_map; eapply nth_error_In; eassumption|left; reflexivity]. Qed.
  Lemma leads_In l name params f : leads G l name params f -> In f l.
  Proof. intros (a & b & -> & _). apply in_elt. Qed.
  Lemma field_lt t fs f : kindOf E t = Some (KStruct fs) -> In f (fieldsOf M t) -> mtype f < length (types E).
  Proof. intros K I. destruct (P t fs f K I) as (Wk & _). eapply walks_lt; [exact Wk|]. eapply kindOf_lt; eassumption. Qed.
  Lemma needs_lt t r u r' : needs E G M (t, r) (u, r') -> u < length (types E).
  Proof.
    intro N. inversion N as [t0 raw0 T p0 ET Nm Ip|t0 raw0 T fs name params f ET Nm K0 Ld]; subst.
    - pose proof (typeOf_kindOf E t T ET) as K. destruct W as (R & _). apply (R t (tkind T) u K). destruct (tkind T); cbn [parts In mentions] in *; try contradiction; intuition congruence.
    - pose proof (typeOf_kindOf E t T ET) as K. rewrite K0 in K. eapply field_lt; [exact K|]. eapply leads_In; eassumption.
  Qed.
  Lemma typeAppender_none : forall fuel t raw r, t < length (types E) -> typeAppender fuel E G M t raw = Ok r -> (r = None <-> exists p, star (needs E G M) (t, raw) p /\ codeless E G M p).
  Proof.
    induction fuel as [|k IH]; intros t raw r Lt H; [discriminate|]. rewrite typeAppender_S in H. apply nth_error_Some in Lt. destruct (typeOf E t) as [T|] eqn:ET; [clear Lt|exfalso; unfold typeOf in ET; congruence].
    destruct (marshals_cases (tmeth T)) as [Q|[(Q & Q')|[(Q & Q' & Q'')|Nm]]]; rewrite ?Q, ?Q', ?Q'' in H;
      try (injection H as <-; split; [discriminate|]; intros (p & Sp & T' & ET' & (N1 & N2 & N3) & _); exfalso; inversion Sp; subst; [cbn [fst] in *; congruence|inversion H; subst; unfold no_marshaler in *; intuition congruence]).
    pose proof Nm as (Q & Q' & Q''). rewrite Q, Q', Q'' in H.
    assert (Part : forall p, In p (parts (tkind T) raw) -> needs E G M (t, raw) p) by (intros p Ip; econstructor; eassumption).
    assert (Down : forall p, needs E G M (t, raw) p -> fst p < length (types E)) by (intros [u r'] N; eapply needs_lt; eassumption).
    assert (Deep : forall p, star (needs E G M) (t, raw) p -> codeless E G M p -> codeless E G M (t, raw) \/ exists q, needs E G M (t, raw) q /\ star (needs E G M) q p) by (intros p Sp Cp; inversion Sp; subst; eauto).
    assert (Here : codeless E G M (t, raw) -> match tkind T with KIface true | KArray _ _ | KOther => True | KStruct _ => codeless E G M (t, raw) | _ => False end).
    { intro C. pose proof C as (T' & ET' & _ & C'). cbn [fst] in ET'. rewrite ET in ET'. injection ET' as <-. destruct (tkind T) as [| | | | | |[]| | | | | |]; auto. }
    assert (Leaf : parts (tkind T) raw = [] -> (forall fs, tkind T <> KStruct fs) -> forall q, ~ needs E G M (t, raw) q).
    { intros Pe Ns q N. inversion N as [t0 raw0 T0 p0 ET0 Nm0 Ip|t0 raw0 T0 fs name params f ET0 Nm0 K0 Ld]; subst; assert (T0 = T) as -> by congruence; [rewrite Pe in Ip; destruct Ip|eapply Ns; eassumption]. }
    assert (One : forall q (rq : option acode), (forall x, needs E G M (t, raw) x -> x = q) -> needs E G M (t, raw) q -> ~ codeless E G M (t, raw) -> (rq = None <-> exists p, star (needs E G M) q p /\ codeless E G M p) ->
      (rq = None <-> exists p, star (needs E G M) (t, raw) p /\ codeless E G M p)).
    { clear H. intros q rq U N Nc (A & B). split.
      - intro R. destruct (A R) as (p & Sp & C). exists p. split; auto. econstructor; eassumption.
      - intros (p & Sp & C). destruct (Deep p Sp C) as [C'|(x & Nx & Sx)]; [contradiction|]. rewrite (U x Nx) in Sx. apply B. eauto. }
    assert (Um : forall (f : acode -> acode) o, option_map f o = None <-> o = None) by (intros f [o|]; cbn; split; congruence).
    destruct (tkind T) as [| | | | | |[]|e|e| |kt e|fs|] eqn:K; try (injection H as <-);
      try (split; [discriminate|]; intros (p & Sp & C); exfalso; destruct (Deep p Sp C) as [C'|(x & Nx & Sx)]; [exact (Here C')|eapply Leaf; [reflexivity|discriminate|exact Nx]]);
      try (split; [|reflexivity]; intros _; exists (t, raw); split; [constructor|]; exists T; cbn [fst]; rewrite K; auto).
    - destruct (typeAppender k E G M e raw) as [r'| |] eqn:D; try discriminate. injection H as <-. rewrite Um. apply (One (e, raw)); auto.
      + intros x N. inversion N as [t0 raw0 T0 p0 ET0 Nm0 Ip|t0 raw0 T0 fs name params f ET0 Nm0 K0 Ld]; subst; assert (T0 = T) as -> by congruence; [rewrite K in Ip; destruct Ip as [<-|[]]; reflexivity|congruence].
      + apply Part. left. reflexivity.
      + apply (IH e raw r'); [apply (Down (e, raw)); apply Part; left; reflexivity|exact D].
    - destruct (typeAppender k E G M e raw) as [r'| |] eqn:D; try discriminate. injection H as <-. rewrite Um. apply (One (e, raw)); auto.
      + intros x N. inversion N as [t0 raw0 T0 p0 ET0 Nm0 Ip|t0 raw0 T0 fs name params f ET0 Nm0 K0 Ld]; subst; assert (T0 = T) as -> by congruence; [rewrite K in Ip; destruct Ip as [<-|[]]; reflexivity|congruence].
      + apply Part. left. reflexivity.
      + apply (IH e raw r'); [apply (Down (e, raw)); apply Part; left; reflexivity|exact D].
    - destruct (typeAppender k E G M kt false) as [r1| |] eqn:D1; try discriminate. destruct (typeAppender k E G M e raw) as [r2| |] eqn:D2; try discriminate. injection H as <-.
      assert (N1 : needs E G M (t, raw) (kt, false)) by (apply Part; left; reflexivity). assert (N2 : needs E G M (t, raw) (e, raw)) by (apply Part; right; left; reflexivity).
      destruct (IH _ _ _ (Down _ N1) D1) as (A1 & B1). destruct (IH _ _ _ (Down _ N2) D2) as (A2 & B2). split.
      + intro Q0. assert (Q1 : r1 = None \/ r2 = None) by (destruct r1, r2; auto; discriminate). destruct Q1 as [Q1|Q1]; [destruct (A1 Q1) as (p & Sp & C); exists p; exact (conj (star_step _ _ _ _ N1 Sp) C)|destruct (A2 Q1) as (p & Sp & C); exists p; exact (conj (star_step _ _ _ _ N2 Sp) C)].
      + intros (p & Sp & C). destruct (Deep p Sp C) as [C'|(x & Nx & Sx)]; [destruct (Here C')|]. assert (X : x = (kt, false) \/ x = (e, raw)).
        { inversion Nx as [t0 raw0 T0 p0 ET0 Nm0 Ip|t0 raw0 T0 fs name params f ET0 Nm0 K0 Ld]; subst; assert (T0 = T) as -> by congruence; [rewrite K in Ip; destruct Ip as [<-|[<-|[]]]; auto|congruence]. }
        destruct X as [-> | ->]; [rewrite B1 by eauto; reflexivity|rewrite B2 by eauto; destruct r1; reflexivity].
    - pose proof (appendFields_cases (typeAppender k E G M) (chosen G [] (sortTags (fieldsOf M t))) ltac:(intros; apply typeAppender_nopanic)) as A.
      destruct (appendFields (typeAppender k E G M) E G (chosen G [] (sortTags (fieldsOf M t)))) as [r'| |]; try discriminate. injection H as <-. destruct A as (A & B).
      assert (Kd : kindOf E t = Some (KStruct fs)) by (rewrite (typeOf_kindOf _ _ _ ET), K; reflexivity).
      assert (Um' : option_map AStruct r' = None <-> r' = None) by (destruct r'; cbn; split; congruence). rewrite Um', B. clear Um Um'. split.
      + intros (name & params & f & I & H). apply chosen_order in I. assert (N : needs E G M (t, raw) (mtype f, has rawParam params)) by (econstructor; eassumption). destruct H as [H|(Ho & H)].
        * destruct (proj1 (IH _ _ _ (Down _ N) H) eq_refl) as (p & Sp & C). exists p. split; [econstructor; eassumption|exact C].
        * apply typeOmiter_none in H as ((gs & Kg) & Nt); [|exact (Down _ N)]. exists (t, raw). split; [constructor|]. exists T. cbn [fst]. rewrite K. split; auto. split; auto. exists name, params, f, gs. auto.
      + intros (p & Sp & C). destruct (Deep p Sp C) as [C'|(x & Nx & Sx)].
        * destruct C' as (T' & ET' & _ & C'). cbn [fst] in *. rewrite ET in ET'. injection ET' as <-. rewrite K in C'. destruct C' as (name & params & f & gs & Ld & Ho & Kg & Nt).
          exists name, params, f. split; [apply chosen_order; exact Ld|]. right. split; auto. apply typeOmiter_none; [|eauto]. eapply kindOf_lt; eassumption.
        * inversion Nx as [t0 raw0 T0 p0 ET0 Nm0 Ip|t0 raw0 T0 fs0 name params f ET0 Nm0 K0 Ld]; subst; assert (T0 = T) as -> by congruence; [rewrite K in Ip; destruct Ip|]. exists name, params, f. pose proof (proj2 (proj1 (chosen_order G (fieldsOf M t)) name params f) Ld) as I. split; [exact I|]. left.
          destruct (A _ _ _ I) as (c & Dc). rewrite Dc. f_equal. apply (IH _ _ _ (Down _ Nx) Dc). eauto.
  Qed.
  Lemma coded_compiles gen : forall cs fs, coded gen cs fs ->
    (compilesF fs = true <-> forall name params f, In (name, params, f) cs ->
      name_quoted name /\ exists c o, gen (mtype f) (has rawParam params) = Ok (Some c) /\ (if has omitEmpty params then typeOmiter E G (mtype f) else Some None) = Some o /\ compilesA c = true /\ (usesV c = true \/ exists x, o = Some x)).
  Proof.
    induction 1 as [|name params f cs o c r Gc Ho C IH]; cbn [compilesF]; [split; [intros _ ? ? ? []|reflexivity]|]. rewrite !andb_true_iff, orb_true_iff, IH, goodName_iff. split.
    - intros (((A & B) & D) & F) n p g [Q|I]; [injection Q as <- <- <-|apply F; exact I]. split; auto. exists c, o. split; auto. split; auto. split; auto. destruct D as [D|D]; auto. right. destruct o; [eauto|discriminate].
    - intro H. destruct (H name params f (or_introl eq_refl)) as (A & c' & o' & Gc' & Ho' & B & D). rewrite Gc in Gc'. injection Gc' as <-. rewrite Ho in Ho'. injection Ho' as <-. split; [split; [split; auto|]|].
      + destruct D as [D|(x & ->)]; auto.
      + intros n p g I. apply H. right. exact I.
  Qed.
  Lemma typeAppender_compiles : forall fuel t raw c, t < length (types E) -> typeAppender fuel E G M t raw = Ok (Some c) -> (compilesA c = true <-> forall p, star (needs E G M) (t, raw) p -> correct_go E G M p).
  Proof.
    induction fuel as [|k IH]; intros t raw c Lt H; [discriminate|]. pose proof H as H0. rewrite typeAppender_S in H. apply nth_error_Some in Lt. destruct (typeOf E t) as [T|] eqn:ET; [clear Lt|discriminate].
    assert (Split : forall R : Prop, (R <-> correct_go E G M (t, raw) /\ forall q, needs E G M (t, raw) q -> forall p, star (needs E G M) q p -> correct_go E G M p) -> (R <-> forall p, star (needs E G M) (t, raw) p -> correct_go E G M p)).
    { intros R HR. rewrite HR. split.
      - intros (A & B) p Sp. inversion Sp; subst; eauto.
      - intro A. split; [apply A; constructor|]. intros q N p Sp. apply A. econstructor; eassumption. }
    destruct (marshals_cases (tmeth T)) as [Q|[(Q & Q')|[(Q & Q' & Q'')|Nm]]]; rewrite ?Q, ?Q', ?Q'' in H;
      try (injection H as <-; split; [|reflexivity]; intros _ p Sp; inversion Sp as [x|x y z N]; subst; [intros T' ET' (N1 & N2 & N3); cbn [fst] in *; congruence|exfalso; inversion N; subst; unfold no_marshaler in *; intuition congruence]).
    pose proof Nm as (Q & Q' & Q''). rewrite Q, Q', Q'' in H.
    assert (Part : forall p, In p (parts (tkind T) raw) -> needs E G M (t, raw) p) by (intros p Ip; econstructor; eassumption).
    assert (Down : forall p, needs E G M (t, raw) p -> fst p < length (types E)) by (intros [u r'] N; eapply needs_lt; eassumption).
    assert (Here : forall R, match tkind T with
      | KIface _ => False | KString => t = tString \/ raw = true
      | KPtr e => (exists X fs, typeOf E e = Some X /\ no_marshaler (tmeth X) /\ tkind X = KStruct fs) \/ hollow_ptr E G M e
      | KSlice e => ~ hollow E G M e | KMap k e => ~ hollow E G M k /\ ~ hollow E G M e
      | KStruct _ => forall name params f, leads G (fieldsOf M t) name params f -> name_quoted name /\ (hollow E G M (mtype f) -> conditional E G params (mtype f))
      | _ => True end = R -> (correct_go E G M (t, raw) <-> R)).
    { intros R <-. unfold correct_go. cbn [fst snd]. split; [intro A; exact (A T ET Nm)|]. intros A T' ET' _. rewrite ET in ET'. injection ET' as <-. exact A. }
    assert (Cases : forall q, needs E G M (t, raw) q -> In q (parts (tkind T) raw) \/ exists fs name params f, tkind T = KStruct fs /\ leads G (fieldsOf M t) name params f /\ q = (mtype f, has rawParam params)).
    { intros q N. inversion N as [t0 raw0 T0 p0 ET0 Nm0 Ip|t0 raw0 T0 fs0 name params f ET0 Nm0 K0 Ld]; subst; assert (T0 = T) as -> by congruence; [auto|]. right. eauto 9. }
    apply Split. clear Split. rewrite (Here _ eq_refl). clear Here.
    destruct (tkind T) as [| | | | | |[]|e|e| |kt e|fs|] eqn:K; cbn [parts] in *; try discriminate;
      try (injection H as <-; cbn [compilesA]; split; auto; intros _; split; auto; intros q N; destruct (Cases q N) as [[]|(? & ? & ? & ? & ? & _)]; discriminate).
    - injection H as <-. destruct raw; cbn [compilesA]; [split; auto; intros _|rewrite Nat.eqb_eq; split; [intros ->|intros ([A|A] & _); congruence]]; (split; [auto|]; intros q N; destruct (Cases q N) as [[]|(? & ? & ? & ? & ? & _)]; discriminate).
    - injection H as <-. cbn [compilesA]. split; [discriminate|]. intros ([] & _).
    - destruct (typeAppender k E G M e raw) as [[c'|]| |] eqn:D; try discriminate. injection H as <-. assert (N : needs E G M (t, raw) (e, raw)) by (apply Part; left; reflexivity). specialize (IH _ _ _ (Down _ N) D).
      assert (exists X, typeOf E e = Some X) as (X & EX) by (destruct k; [discriminate|]; rewrite typeAppender_S in D; destruct (typeOf E e); [eauto|discriminate]).
      pose proof (shape_struct _ _ _ _ _ D EX) as Sh. assert (Cp : compilesA (APtr c') = true <-> ((exists fs, c' = AStruct fs) \/ exists c'', c' = APtr c'' /\ onlyNil c'' = true) /\ compilesA c' = true).
      { destruct c' as [| | |c''| | |r| | | | | | |]; try (cbn [compilesA]; split; [discriminate|]; intros ([(? & ?)|(? & ? & _)] & _); discriminate).
        - change (compilesA (APtr (APtr c''))) with (onlyNil c''). split.
          + intro O. split; [right; eauto|]. destruct c'' as [| | |c3| | |[|]| | | | | | |]; try discriminate; [|reflexivity]. clear - O. cbn [compilesA]. destruct c3 as [| | |c4| | |[|]| | | | | | |]; try discriminate; [exact O|reflexivity].
          + intros ([(? & ?)|(c3 & Qc & O)] & _); [discriminate|]. injection Qc as <-. exact O.
        - change (compilesA (APtr (AStruct r))) with (compilesF r). split; [intro A; split; [left; eauto|exact A]|intros (_ & A); exact A]. }
      rewrite Cp, Sh, IH, (onlyNil_ptr _ _ _ _ D). split.
      + intros (A & B). split; [destruct A as [(NX & l & KX)|A]; [left; exists X, l; auto|right; exact A]|]. intros q Nq p Sp. destruct (Cases q Nq) as [[<-|[]]|(? & ? & ? & ? & ? & _)]; [auto|discriminate].
      + intros (A & B). split; [destruct A as [(X' & l & EX' & NX & KX)|A]; [left|right; exact A]; rewrite EX in EX'; injection EX' as <-; eauto|]. intros p Sp. exact (B _ N p Sp).
    - destruct (typeAppender k E G M e raw) as [[c'|]| |] eqn:D; try discriminate. injection H as <-. assert (N : needs E G M (t, raw) (e, raw)) by (apply Part; left; reflexivity). specialize (IH _ _ _ (Down _ N) D).
      cbn [compilesA]. rewrite andb_true_iff, IH, (usesV_true _ _ _ _ D). split.
      + intros (A & B). split; auto. intros q Nq p Sp. destruct (Cases q Nq) as [[<-|[]]|(? & ? & ? & ? & ? & _)]; [auto|discriminate].
      + intros (A & B). split; auto. intros p Sp. exact (B _ N p Sp).
    - destruct (typeAppender k E G M kt false) as [[c1|]| |] eqn:D1; try discriminate; destruct (typeAppender k E G M e raw) as [[c2|]| |] eqn:D2; try discriminate. injection H as <-.
      assert (N1 : needs E G M (t, raw) (kt, false)) by (apply Part; left; reflexivity). assert (N2 : needs E G M (t, raw) (e, raw)) by (apply Part; right; left; reflexivity).
      pose proof (IH _ _ _ (Down _ N1) D1) as I1. pose proof (IH _ _ _ (Down _ N2) D2) as I2. cbn [compilesA]. rewrite !andb_true_iff, I1, I2, (usesV_true _ _ _ _ D1), (usesV_true _ _ _ _ D2). split.
      + intros (((A & B) & C) & F). split; auto. intros q Nq p Sp. destruct (Cases q Nq) as [[<-|[<-|[]]]|(? & ? & ? & ? & ? & _)]; [auto|auto|discriminate].
      + intros ((A & B) & C). repeat split; auto; intros p Sp; [exact (C _ N1 p Sp)|exact (C _ N2 p Sp)].
    - destruct (appendFields (typeAppender k E G M) E G (chosen G [] (sortTags (fieldsOf M t)))) as [[r|]| |] eqn:A; try discriminate. injection H as <-. cbn [compilesA]. apply appendFields_coded in A. rewrite (coded_compiles _ _ _ A). split.
      + intro H. assert (Ld : forall name params f, leads G (fieldsOf M t) name params f -> name_quoted name /\ (hollow E G M (mtype f) -> conditional E G params (mtype f)) /\ forall p, star (needs E G M) (mtype f, has rawParam params) p -> correct_go E G M p).
        { intros name params f Lf. assert (N : needs E G M (t, raw) (mtype f, has rawParam params)) by (econstructor; eassumption). destruct (H name params f ltac:(apply chosen_order; exact Lf)) as (Gn & c & o & Dc & Ho & Cc & U). split; auto. split.
          - intro Hl. destruct U as [U|U]; [apply (usesV_true _ _ _ _ Dc) in U; contradiction|]. eapply typeOmiter_cond; [exact (Down _ N)|exact Ho|exact U].
          - apply (IH _ _ _ (Down _ N) Dc). exact Cc. }
        split; [intros name params f Lf; destruct (Ld _ _ _ Lf) as (B & C & _); auto|]. intros q Nq p Sp. destruct (Cases q Nq) as [[]|(l & name & params & f & _ & Lf & ->)]. eapply Ld; eassumption.
      + intros (B & C) name params f I. assert (Lf : leads G (fieldsOf M t) name params f) by (apply chosen_order; exact I). assert (N : needs E G M (t, raw) (mtype f, has rawParam params)) by (econstructor; eassumption).
        destruct (B _ _ _ Lf) as (Gn & Hl). split; auto. assert (exists c o, typeAppender k E G M (mtype f) (has rawParam params) = Ok (Some c) /\ (if has omitEmpty params then typeOmiter E G (mtype f) else Some None) = Some o) as (c & o & Dc & Ho).
        { clear - A I. induction A; [destruct I|]. destruct I as [Q|I]; [injection Q as <- <- <-; eauto|auto]. }
        exists c, o. split; auto. split; auto. split; [apply (IH _ _ _ (Down _ N) Dc); exact (C _ N)|]. destruct (usesV c) eqn:U; auto. right. apply (usesV_hollow _ _ _ _ Dc) in U. eapply typeOmiter_cond; [exact (Down _ N)|exact Ho|auto].
  Qed.
  Lemma C60_compiles_lem t c : t < length (types E) -> Appender E G M t = Ok (Some c) ->
    (compilesAppender M t c = true <-> hasAppend M t = false /\ (forall T, typeOf E t = Some T -> no_marshaler (tmeth T) -> exists fs, tkind T = KStruct fs) /\ forall p, star (needs E G M) (t, false) p -> correct_go E G M p).
  Proof.
    intros Lt H. rewrite <- (typeAppender_compiles _ _ _ _ Lt H). assert (exists T, typeOf E t = Some T) as (T & ET) by (unfold Appender in H; rewrite typeAppender_S in H; destruct (typeOf E t); [eauto|discriminate]).
    pose proof (shape_struct _ _ _ _ _ H ET) as (A & B). unfold compilesAppender. rewrite andb_true_iff, negb_true_iff.
    enough (Body : (match c with AStruct fs => compilesF fs | AAppender _ | AMarshaler _ | AText _ => true | _ => false end = true) <-> (forall T, typeOf E t = Some T -> no_marshaler (tmeth T) -> exists fs, tkind T = KStruct fs) /\ compilesA c = true) by tauto.
    assert (Meth : ~ no_marshaler (tmeth T) -> match c with AStruct fs => compilesF fs | AAppender _ | AMarshaler _ | AText _ => true | _ => false end = true /\ compilesA c = true).
    { intro Nn. unfold Appender in H. rewrite typeAppender_S, ET in H. destruct (marshals_cases (tmeth T)) as [Q|[(Q & Q')|[(Q & Q' & Q'')|Nm]]]; rewrite ?Q, ?Q', ?Q'' in H; try (injection H as <-; auto). contradiction. }
    split.
    - intro Cc. split.
      + intros T' ET' Nm. rewrite ET in ET'. injection ET' as <-. assert (Ca : exists r, c = AStruct r).
        { destruct c; try discriminate Cc; [..|eauto]; unfold Appender in H; rewrite typeAppender_S, ET in H; destruct Nm as (N1 & N2 & N3); rewrite N1, N2, N3 in H; exfalso; destruct (tkind T) as [| | | | | |[]|e|e| |kt e|fs|]; try discriminate;
          try (destruct (typeAppender (length (types E)) E G M e false) as [[c'|]| |]; discriminate);
          try (destruct (typeAppender (length (types E)) E G M kt false) as [[c1|]| |]; try discriminate; destruct (typeAppender (length (types E)) E G M e false) as [[c'|]| |]; discriminate);
          try (destruct (appendFields (typeAppender (length (types E)) E G M) E G (chosen G [] (sortTags (fieldsOf M t)))) as [[r|]| |]; discriminate). }
        apply A. exact Ca.
      + destruct c; try discriminate; auto.
    - intros (St & Cc). destruct (marshals_cases (tmeth T)) as [Q|[(Q & Q')|[(Q & Q' & Q'')|Nm]]]; [apply Meth; unfold no_marshaler; intuition congruence..|].
      destruct (B (conj Nm (St T ET Nm))) as (r & ->). exact Cc.
  Qed.
  Lemma C60_lem t : t < length (types E) ->
    (loops (needs_t E G M) t -> forall fuel raw, typeAppender fuel E G M t raw = Diverge) /\
    (~ loops (needs_t E G M) t -> exists r, Appender E G M t = Ok r /\ (r = None <-> exists p, star (needs E G M) (t, false) p /\ codeless E G M p)).
  Proof.
    intro Lt. split; [intros L fuel raw; apply typeAppender_loops; exact L|]. intro NL. unfold Appender. destruct (typeAppender (S (length (types E))) E G M t false) as [r| |] eqn:D.
    - exists r. split; auto. eapply typeAppender_none; eassumption.
    - destruct (typeAppender_nopanic _ _ _ D).
    - exfalso. apply NL. destruct (typeAppender_run _ _ _ D) as (l & L & C). apply (run_loops _ (length (types E)) t l); auto. intros a b (r & r' & N). eapply needs_lt; eassumption.
  Qed.
End Append.
