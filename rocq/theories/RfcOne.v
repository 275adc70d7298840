(* The grammar of RFC 8259 is unambiguous (C02). *)
From Verif Require Import Bytes JsonSpec Types Parser Doc DocSpec DocProofs ParserThms.

Definition no_ws (s : bytes) : Prop := match s with c :: _ => ~ ws_byte c | [] => True end.
Lemma ws_split s : forall s' a a', ws s -> ws s' -> no_ws a -> no_ws a' -> s ++ a = s' ++ a' -> s = s' /\ a = a'.
Proof.
  induction s as [|c s IH]; intros s' a a' W W' N N' Q.
  - destruct s' as [|c' s']; [auto|]. cbn in Q. subst a. inversion W'; subst. contradiction.
  - destruct s' as [|c' s']; cbn in Q; [subst a'; inversion W; subst; contradiction|]. injection Q as <- Q. inversion W; subst. inversion W'; subst. destruct (IH s' a a') as (-> & ->); auto.
Qed.
Lemma esc_split w : esc_content w -> forall w' r r', esc_content w' -> w ++ x22 :: r = w' ++ x22 :: r' -> w = w' /\ r = r'.
Proof.
  induction 1 as [|c w Hq Hb _ IH|c w _ IH]; intros w' r r' E' Q; inversion E' as [|c' u Hq' Hb' E''|c' u E'']; subst; cbn in Q; injection Q as Q; try congruence; subst; auto.
  - destruct (IH u r r') as (-> & ->); auto.
  - destruct (IH u r r') as (-> & ->); auto.
Qed.
Lemma chars_split w w' r r' : rfc_chars w -> rfc_chars w' -> w ++ x22 :: r = w' ++ x22 :: r' -> w = w' /\ r = r'.
Proof. intros A B. apply esc_split; apply rfc_esc; assumption. Qed.
Lemma num_split w : forall w' r r', Forall (fun c => ~ num_end c) w -> Forall (fun c => ~ num_end c) w' -> num_stop r -> num_stop r' -> w ++ r = w' ++ r' -> w = w' /\ r = r'.
Proof.
  induction w as [|c w IH]; intros w' r r' F F' S S' Q.
  - destruct w' as [|c' w']; [auto|]. cbn in Q. subst r. inversion F'; subst. contradiction.
  - destruct w' as [|c' w']; cbn in Q; [subst r'; inversion F; subst; contradiction|]. injection Q as <- Q. inversion F; subst. inversion F'; subst. destruct (IH w' r r') as (-> & ->); auto.
Qed.
Lemma number_bytes w : rfc_number w -> exists c t, w = c :: t /\ (c = x2d \/ digit c) /\ Forall (fun c => ~ num_end c) w.
Proof.
  intro H. destruct (rfc_lenient_number w H) as (c & t & -> & C & F). exists c, t. split; [reflexivity|]. split; [exact C|]. constructor; [|exact F].
  destruct C as [->|D]; [|exact (digit_not_end _ D)]. intros [[X|[X|[X|X]]]|[X|[X|X]]]; discriminate X.
Qed.
(* the byte that a value begins with *)
Definition starts (v : jval) (c : byte) : Prop :=
  match v with JStr _ => c = x22 | JNum _ => c = x2d \/ digit c | JTrue => c = x74 | JFalse => c = x66 | JNull => c = x6e | JArr _ => c = x5b | JObj _ => c = x7b end.
Lemma value_starts v w : rfc_value v w -> exists c t, w = c :: t /\ starts v c.
Proof.
  intros H. inversion H; subst; cbn [starts]; try (eexists _, _; split; [reflexivity|reflexivity]).
  match goal with A : rfc_number w |- _ => destruct (number_bytes w A) as (c & t & -> & C & _) end. exists c, t. auto.
Qed.
Definition form (v : jval) : nat := match v with JStr _ => 0 | JNum _ => 1 | JTrue => 2 | JFalse => 3 | JNull => 4 | JArr _ => 5 | JObj _ => 6 end.
Lemma starts_form v v' c : starts v c -> starts v' c -> form v = form v'.
Proof.
  intros S S'. destruct v, v'; cbn [starts form] in *; auto; exfalso; subst; try discriminate;
    repeat match goal with A : _ \/ _ |- _ => destruct A end; subst; try discriminate; match goal with D : digit _ |- _ => unfold digit in D; vm_compute in D; destruct D as [D1 D2]; congruence end.
Qed.
Lemma starts_plain v c : starts v c -> ~ ws_byte c /\ c <> x2c /\ c <> x5d /\ c <> x7d.
Proof.
  intro S. assert (X : c = x22 \/ c = x2d \/ digit c \/ c = x74 \/ c = x66 \/ c = x6e \/ c = x5b \/ c = x7b) by (destruct v; cbn [starts] in S; tauto).
  unfold ws_byte. destruct X as [->|[->|[D|[->|[->|[->|[->| ->]]]]]]]; try (repeat split; try discriminate; intros [Y|[Y|[Y|Y]]]; discriminate Y).
  repeat split; [intros [->|[->|[->| ->]]]|intros ->|intros ->|intros ->]; unfold digit in D; vm_compute in D; destruct D as [D1 D2]; congruence.
Qed.
Lemma value_no_ws v w r : rfc_value v w -> no_ws (w ++ r).
Proof. intro H. destruct (value_starts v w H) as (c & t & -> & S). cbn. exact (proj1 (starts_plain _ _ S)). Qed.
Lemma stop_ws s c r : ws s -> num_end c -> num_stop (s ++ c :: r).
Proof. intros W C. destruct s as [|d s]; cbn; [exact C|]. inversion W; subst. left. assumption. Qed.
Lemma not_ws c : In c [x22; x2c; x3a; x5d; x7d] -> ~ ws_byte c.
Proof. intros I [->|[->|[->| ->]]]; cbn in I; repeat (destruct I as [I|I]; [discriminate I|]); destruct I. Qed.

Local Notation els := (elements ws rfc_chars rfc_chars rfc_number).
Local Notation mems := (members ws rfc_chars rfc_chars rfc_number).
Definition one_value (v : jval) (w : bytes) : Prop := forall v' w' r r', rfc_value v' w' -> w ++ r = w' ++ r' -> num_stop r -> num_stop r' -> v = v' /\ r = r'.
Lemma els_head vs w : els vs w -> exists s v w1 r, ws s /\ rfc_value v w1 /\ w = s ++ w1 ++ r.
Proof. intro H. inversion H as [s1 v w1 s2 A B C|s1 v w1 s2 vs' w' A B C D]; subst; [exists s1, v, w1, s2|exists s1, v, w1, (s2 ++ x2c :: w')]; auto. Qed.
Lemma mems_head ms w : mems ms w -> exists s r, ws s /\ w = s ++ x22 :: r.
Proof. intro H. inversion H; subst; eexists _, _; (split; [|reflexivity]); assumption. Qed.
Lemma els_not_end vs w s r r' : els vs w -> ws s -> s ++ x5d :: r <> w ++ r'.
Proof.
  intros H W Q. destruct (els_head _ _ H) as (s1 & v & w1 & t & W1 & V & ->). rewrite <- !app_assoc in Q. destruct (value_starts _ _ V) as (c & u & -> & S). apply starts_plain in S as (S1 & _ & S2 & _).
  apply ws_split in Q as (_ & Q); auto; [injection Q as <- _; congruence|apply not_ws; cbn; tauto].
Qed.
Lemma mems_not_end ms w s r r' : mems ms w -> ws s -> s ++ x7d :: r <> w ++ r'.
Proof.
  intros H W Q. destruct (mems_head _ _ H) as (s1 & t & W1 & ->). rewrite <- !app_assoc in Q. apply ws_split in Q as (_ & Q); auto; try (apply not_ws; cbn; tauto). discriminate.
Qed.
Lemma rfc_one : (forall v w, rfc_value v w -> one_value v w) /\
  (forall vs w, els vs w -> forall vs' w' r r', els vs' w' -> w ++ x5d :: r = w' ++ x5d :: r' -> vs = vs' /\ r = r') /\
  (forall ms w, mems ms w -> forall ms' w' r r', mems ms' w' -> w ++ x7d :: r = w' ++ x7d :: r' -> ms = ms' /\ r = r').
Proof.
  assert (Same : forall v w v' w' r r', rfc_value v w -> rfc_value v' w' -> w ++ r = w' ++ r' -> form v = form v').
  { intros v w v' w' r r' A B Q. destruct (value_starts _ _ A) as (c & t & -> & S). destruct (value_starts _ _ B) as (c' & t' & -> & S'). injection Q as <- _. eapply starts_form; eassumption. }
  apply grammar_mind.
  - intros w Hw v' w' r r' V Q _ _. pose proof (Same _ _ _ _ _ _ (v_str _ _ _ _ _ Hw) V Q) as F. inversion V; subst; try discriminate F. cbn in Q. injection Q as Q. rewrite <- !app_assoc in Q.
    match goal with A : rfc_chars ?x, B : _ = ?x ++ _ |- _ => destruct (chars_split _ _ _ _ Hw A B) as (-> & ->) end. auto.
  - intros w Hw v' w' r r' V Q S S'. pose proof (Same _ _ _ _ _ _ (v_num _ _ _ _ _ Hw) V Q) as F. inversion V; subst; try discriminate F.
    destruct (number_bytes w Hw) as (_ & _ & _ & _ & N). match goal with A : rfc_number w' |- _ => destruct (number_bytes w' A) as (_ & _ & _ & _ & N') end. destruct (num_split _ _ _ _ N N' S S' Q) as (-> & ->). auto.
  - intros v' w' r r' V Q _ _. pose proof (Same _ _ _ _ _ _ (v_true _ _ _ _) V Q) as F. inversion V; subst; try discriminate F. cbn in Q. injection Q as Q. auto.
  - intros v' w' r r' V Q _ _. pose proof (Same _ _ _ _ _ _ (v_false _ _ _ _) V Q) as F. inversion V; subst; try discriminate F. cbn in Q. injection Q as Q. auto.
  - intros v' w' r r' V Q _ _. pose proof (Same _ _ _ _ _ _ (v_null _ _ _ _) V Q) as F. inversion V; subst; try discriminate F. cbn in Q. injection Q as Q. auto.
  - intros s Ws v' w' r r' V Q _ _. pose proof (Same _ _ _ _ _ _ (v_arr0 _ _ _ _ _ Ws) V Q) as F. inversion V as [| | | | |s' Ws'|vs' u El| |]; subst; try discriminate F; cbn in Q; injection Q as Q; rewrite <- !app_assoc in Q.
    + apply ws_split in Q as (_ & Q); auto; try (apply not_ws; cbn; tauto). injection Q as ->. auto.
    + exfalso. exact (els_not_end _ _ _ _ _ El Ws Q).
  - intros vs w Hv IH v' w' r r' V Q _ _. pose proof (Same _ _ _ _ _ _ (v_arr _ _ _ _ _ _ Hv) V Q) as F. inversion V as [| | | | |s' Ws'|vs' u El| |]; subst; try discriminate F; cbn in Q; injection Q as Q; rewrite <- !app_assoc in Q.
    + exfalso. symmetry in Q. exact (els_not_end _ _ _ _ _ Hv Ws' Q).
    + destruct (IH _ _ _ _ El Q) as (-> & ->). auto.
  - intros s Ws v' w' r r' V Q _ _. pose proof (Same _ _ _ _ _ _ (v_obj0 _ _ _ _ _ Ws) V Q) as F. inversion V as [| | | | | | |s' Ws'|vs' u El]; subst; try discriminate F; cbn in Q; injection Q as Q; rewrite <- !app_assoc in Q.
    + apply ws_split in Q as (_ & Q); auto; try (apply not_ws; cbn; tauto). injection Q as ->. auto.
    + exfalso. exact (mems_not_end _ _ _ _ _ El Ws Q).
  - intros vs w Hv IH v' w' r r' V Q _ _. pose proof (Same _ _ _ _ _ _ (v_obj _ _ _ _ _ _ Hv) V Q) as F. inversion V as [| | | | | | |s' Ws'|vs' u El]; subst; try discriminate F; cbn in Q; injection Q as Q; rewrite <- !app_assoc in Q.
    + exfalso. symmetry in Q. exact (mems_not_end _ _ _ _ _ Hv Ws' Q).
    + destruct (IH _ _ _ _ El Q) as (-> & ->). auto.
  - intros s1 v w s2 W1 V IH W2 vs' w' r r' El Q.
    inversion El as [s1' v' w1 s2' W1' V' W2'|s1' v' w1 s2' vs2 w2 W1' V' W2' El2]; subst; rewrite <- !app_assoc in Q; cbn [app] in Q; apply ws_split in Q as (_ & Q); auto; try (eapply value_no_ws; eassumption).
    + apply (IH _ _ _ _ V') in Q as (-> & Q); auto; try (apply stop_ws; auto; right; tauto). apply ws_split in Q as (_ & Q); auto; try (apply not_ws; cbn; tauto). injection Q as ->. auto.
    + exfalso. apply (IH _ _ _ _ V') in Q as (-> & Q); auto; try (apply stop_ws; auto; right; tauto). apply ws_split in Q as (_ & Q); auto; try (apply not_ws; cbn; tauto). discriminate.
  - intros s1 v w s2 vs w0 W1 V IH W2 E0 IHe vs' w' r r' El Q.
    inversion El as [s1' v' w1 s2' W1' V' W2'|s1' v' w1 s2' vs2 w2 W1' V' W2' El2]; subst; rewrite <- !app_assoc in Q; cbn [app] in Q; apply ws_split in Q as (_ & Q); auto; try (eapply value_no_ws; eassumption).
    + exfalso. apply (IH _ _ _ _ V') in Q as (-> & Q); auto; try (apply stop_ws; auto; right; tauto). apply ws_split in Q as (_ & Q); auto; try (apply not_ws; cbn; tauto). discriminate.
    + apply (IH _ _ _ _ V') in Q as (-> & Q); auto; try (apply stop_ws; auto; right; tauto). apply ws_split in Q as (_ & Q); auto; try (apply not_ws; cbn; tauto). injection Q as Q.
      destruct (IHe _ _ _ _ El2 Q) as (-> & ->). auto.
  - intros s1 k s2 s3 v w s4 W1 K W2 W3 V IH W4 ms' w' r r' El Q.
    inversion El as [s1' k' s2' s3' v' w1 s4' W1' K' W2' W3' V' W4'|s1' k' s2' s3' v' w1 s4' ms2 w2 W1' K' W2' W3' V' W4' El2]; subst; repeat (rewrite <- ?app_assoc in Q; cbn [app] in Q); apply ws_split in Q as (_ & Q); auto; try (apply not_ws; cbn; tauto);
      injection Q as Q; apply chars_split in Q as (-> & Q); auto; apply ws_split in Q as (_ & Q); auto; try (apply not_ws; cbn; tauto); injection Q as Q; apply ws_split in Q as (_ & Q); auto; try (eapply value_no_ws; eassumption);
      apply (IH _ _ _ _ V') in Q as (-> & Q); auto; try (apply stop_ws; auto; right; tauto); apply ws_split in Q as (_ & Q); auto; try (apply not_ws; cbn; tauto); try discriminate Q. injection Q as ->. auto.
  - intros s1 k s2 s3 v w s4 ms w0 W1 K W2 W3 V IH W4 E0 IHe ms' w' r r' El Q.
    inversion El as [s1' k' s2' s3' v' w1 s4' W1' K' W2' W3' V' W4'|s1' k' s2' s3' v' w1 s4' ms2 w2 W1' K' W2' W3' V' W4' El2]; subst; repeat (rewrite <- ?app_assoc in Q; cbn [app] in Q); apply ws_split in Q as (_ & Q); auto; try (apply not_ws; cbn; tauto);
      injection Q as Q; apply chars_split in Q as (-> & Q); auto; apply ws_split in Q as (_ & Q); auto; try (apply not_ws; cbn; tauto); injection Q as Q; apply ws_split in Q as (_ & Q); auto; try (eapply value_no_ws; eassumption);
      apply (IH _ _ _ _ V') in Q as (-> & Q); auto; try (apply stop_ws; auto; right; tauto); apply ws_split in Q as (_ & Q); auto; try (apply not_ws; cbn; tauto); try discriminate Q. injection Q as Q.
    destruct (IHe _ _ _ _ El2 Q) as (-> & ->). auto.
Qed.
Lemma rfc_unique v v' w : rfc_value v w -> rfc_value v' w -> v = v'.
Proof. intros A B. exact (proj1 (proj1 rfc_one v w A v' w [] [] B eq_refl I I)). Qed.
