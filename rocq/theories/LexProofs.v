(* Lexical lemmas: tables, white space, strings and numbers of the parser model. *)
From Verif Require Import Bytes Tables Types JsonSpec Parser.

Definition wsb (c : byte) : bool := beqb c x20 || beqb c x09 || beqb c x0a || beqb c x0d.
Definition numendb (c : byte) : bool := wsb c || beqb c x2c || beqb c x5d || beqb c x7d.
Definition digitb (c : byte) : bool := (48 <=? bN c)%N && (bN c <=? 57)%N.

Lemma wsb_iff c : wsb c = true <-> ws_byte c.
Proof. unfold wsb, ws_byte. rewrite !orb_true_iff, !beqb_true. tauto. Qed.

Lemma wsb_not c : wsb c = false <-> ~ ws_byte c.
Proof. rewrite <- wsb_iff. destruct (wsb c); split; congruence. Qed.

Lemma numendb_iff c : numendb c = true <-> num_end c.
Proof. unfold numendb, num_end. rewrite !orb_true_iff, !beqb_true, wsb_iff. tauto. Qed.

Lemma numendb_not c : numendb c = false <-> ~ num_end c.
Proof. rewrite <- numendb_iff. destruct (numendb c); split; congruence. Qed.

Lemma digitb_iff c : digitb c = true <-> digit c.
Proof. unfold digitb, digit. rewrite andb_true_iff, !N.leb_le. tauto. Qed.

Lemma tbl_space c : beqb (tbl bytemapIsSpace c) x00 = negb (wsb c).
Proof.
  apply eqb_prop. revert c. apply forall_bytes. vm_compute. reflexivity.
Qed.

Lemma tbl_numend c : beqb (tbl bytemapIsNumberEnd c) x00 = negb (numendb c).
Proof. apply eqb_prop. revert c. apply forall_bytes. vm_compute. reflexivity. Qed.

Lemma tbl_digit c : beqb (tbl bytemapIsDigit c) x01 = digitb c.
Proof. apply eqb_prop. revert c. apply forall_bytes. vm_compute. reflexivity. Qed.

Lemma digit_not_numend c : digitb c = true -> numendb c = false.
Proof.
  intro H.
  assert (G : forallb (fun c => implb (digitb c) (negb (numendb c))) all_bytes = true)
    by (vm_compute; reflexivity).
  pose proof (forall_bytes _ G c) as K. cbv beta in K. rewrite H in K. destruct (numendb c); cbn in *; congruence.
Qed.

(* ---- white space ---- *)

Definition nonspace_head (s : bytes) : Prop :=
  match s with [] => True | c :: _ => ~ ws_byte c end.

Lemma skipSpace_spec s pos s' pos' :
  skipSpace s pos = (s', pos') ->
  exists w, s = w ++ s' /\ ws w /\ pos' = (pos + lenN w)%N /\ nonspace_head s'.
Proof.
  revert pos; induction s as [|c r IH]; simpl; intros pos H.
  - injection H as <- <-. exists []. simpl. unfold ws, lenN; simpl. repeat split; auto; lia.
  - rewrite tbl_space in H. destruct (wsb c) eqn:E; simpl in H.
    + apply IH in H as (w & -> & Hw & -> & Hn). exists (c :: w). unfold lenN; simpl.
      repeat split; auto; [constructor; auto; apply wsb_iff; auto | lia].
    + injection H as <- <-. exists []. simpl. unfold ws, lenN; simpl.
      repeat split; auto; [lia | apply wsb_not; auto].
Qed.

Lemma skipSpace_app w s pos :
  ws w -> nonspace_head s -> skipSpace (w ++ s) pos = (s, (pos + lenN w)%N).
Proof.
  revert pos; induction w as [|c w IH]; intros pos Hw Hs; simpl.
  - unfold lenN; simpl. rewrite N.add_0_r. destruct s as [|c r]; simpl; auto.
    rewrite tbl_space. simpl in Hs. apply wsb_not in Hs. rewrite Hs. reflexivity.
  - inversion Hw; subst. rewrite tbl_space. apply wsb_iff in H1. rewrite H1. simpl.
    rewrite IH; auto. unfold lenN; simpl. f_equal. lia.
Qed.

Lemma skipSpace_nil_app w t pos s1 pos1 :
  skipSpace w pos = ([], pos1) -> skipSpace (w ++ t) pos = (s1, pos1) -> 
  exists u, t = u ++ s1 /\ ws u.
Proof.
  intros H1 H2. apply skipSpace_spec in H1 as (w1 & -> & Hw & -> & _).
  apply skipSpace_spec in H2 as (w2 & E & Hw2 & Ep & _).
  rewrite app_nil_r in E.
  assert (length w1 = length w2) by (unfold lenN in Ep; lia).
  apply app_eq_app in E as (l & [[-> E]|[-> E]]); rewrite app_length in H.
  - destruct l; simpl in H; [|lia]. exists []. simpl in E. subst. split; auto. constructor.
  - destruct l; simpl in H; [|lia]. exists []. simpl in E. subst. split; auto. constructor.
Qed.

(* ---- quotes ---- *)

Lemma indexByte_spec c s i :
  indexByte c s = Some i <-> exists a b, s = a ++ c :: b /\ ~ In c a /\ length a = i.
Proof.
  revert i; induction s as [|x r IH]; simpl; intros i.
  - split; [congruence|]. intros (a & b & H & _). destruct a; discriminate.
  - destruct (beqb_spec x c) as [->|Hne].
    + split.
      * injection 1 as <-. exists [], r. simpl. auto.
      * intros (a & b & H & Hn & <-). destruct a as [|y a]; auto.
        injection H as -> ->. exfalso; apply Hn; left; auto.
    + split.
      * destruct (indexByte c r) eqn:E; simpl; [|congruence]. injection 1 as <-.
        destruct (proj1 (IH n) eq_refl) as (a & b & -> & Hn & <-).
        exists (x :: a), b. simpl. repeat split; auto. intros [->|?]; auto.
      * intros (a & b & H & Hn & <-). destruct a as [|y a].
        -- injection H as -> ->. congruence.
        -- injection H as -> ->. simpl in *.
           assert (indexByte c (a ++ c :: b) = Some (length a)) as ->.
           { apply IH. exists a, b. tauto. }
           reflexivity.
Qed.

Lemma indexByte_none c s : indexByte c s = None <-> ~ In c s.
Proof.
  induction s as [|x r IH]; simpl; [tauto|].
  destruct (beqb_spec x c) as [->|Hne].
  - split; [congruence|]. intros H; exfalso; auto.
  - destruct (indexByte c r); simpl; split; try congruence; intros H.
    + assert (~ In c r) as K by tauto. apply IH in K. congruence.
    + intros [?|?]; auto. apply IH; auto.
Qed.

Lemma scanQuote_shift s i : scanQuote s i = option_map (fun j => i + j)%nat (scanQuote s 0).
Proof.
  revert i. induction s as [s IH] using (induction_ltof1 _ (@length byte)).
  unfold ltof in IH. intros i. destruct s as [|c r]; simpl; auto.
  destruct (beqb c delimString); simpl; [f_equal; lia|].
  destruct (beqb c delimEscape).
  - destruct r as [|d r']; auto.
    rewrite (IH r' ltac:(simpl; lia) (S (S i))), (IH r' ltac:(simpl; lia) 2).
    destruct (scanQuote r' 0); simpl; [f_equal; lia | reflexivity].
  - rewrite (IH r ltac:(simpl; lia) (S i)), (IH r ltac:(simpl; lia) 1).
    destruct (scanQuote r 0); simpl; [f_equal; lia | reflexivity].
Qed.

Lemma scanQuote_spec s i :
  scanQuote s 0 = Some i <-> exists a b, s = a ++ x22 :: b /\ esc_content a /\ length a = i.
Proof.
  revert i. induction s as [s IH] using (induction_ltof1 _ (@length byte)).
  unfold ltof in IH. intros i. destruct s as [|c r]; simpl.
  - split; [congruence|]. intros (a & b & H & _). destruct a; discriminate.
  - unfold delimString, delimEscape. destruct (beqb_spec c x22) as [->|Hq].
    + split.
      * injection 1 as <-. exists [], r. repeat split; auto. constructor.
      * intros (a & b & H & Hn & <-). destruct Hn; auto; simpl in H; injection H; intros; subst; congruence.
    + destruct (beqb_spec c x5c) as [->|He].
      * destruct r as [|d r].
        -- split; [congruence|]. intros (a & b & H & Hn & _).
           destruct Hn; simpl in H; try discriminate; injection H; intros.
           destruct w; discriminate.
        -- rewrite scanQuote_shift. specialize (IH r ltac:(simpl; lia)). split.
           ++ destruct (scanQuote r 0) eqn:E; simpl; [|congruence]. injection 1 as <-.
              destruct (proj1 (IH n) eq_refl) as (a & b & -> & Ha & <-).
              exists (x5c :: d :: a), b. repeat split; auto. apply esc_pair; auto.
           ++ intros (a & b & H & Ha & <-). destruct Ha; simpl in H.
              ** injection H as ? ?; congruence.
              ** injection H as <- ?; congruence.
              ** injection H as -> ->.
                 assert (scanQuote (w ++ x22 :: b) 0 = Some (length w)) as ->.
                 { apply IH. exists w, b. auto. }
                 reflexivity.
      * rewrite scanQuote_shift. specialize (IH r ltac:(simpl; lia)). split.
        -- destruct (scanQuote r 0) eqn:E; simpl; [|congruence]. injection 1 as <-.
           destruct (proj1 (IH n) eq_refl) as (a & b & -> & Ha & <-).
           exists (c :: a), b. repeat split; auto. constructor; auto.
        -- intros (a & b & H & Ha & <-). destruct Ha; simpl in H.
           ++ injection H as ? ?; congruence.
           ++ injection H as -> ->.
              assert (scanQuote (w ++ x22 :: b) 0 = Some (length w)) as ->.
              { apply IH. exists w, b. auto. }
              reflexivity.
           ++ injection H as ? ?; congruence.
Qed.

Lemma skipn_app_exact {A} (a b : list A) n : length a = n -> skipn n (a ++ b) = b.
Proof. intros <-. rewrite skipn_app, skipn_all, Nat.sub_diag. reflexivity. Qed.

Lemma firstn_app_exact {A} (a b : list A) n : length a = n -> firstn n (a ++ b) = a.
Proof. intros <-. rewrite firstn_app, firstn_all, Nat.sub_diag. simpl. apply app_nil_r. Qed.

Lemma snoc_cases {A} (l : list A) : l = [] \/ exists a x, l = a ++ [x].
Proof. destruct l using rev_ind; eauto. Qed.

(* The two alternatives of a string's content exclude each other, and delimit uniquely. *)
Lemma readString_spec s i :
  readString s = Some i <-> exists a b, s = a ++ x22 :: b /\ lenient_string a /\ length a = i.
Proof.
  destruct s as [|c r].
  { simpl. split; [congruence|]. intros (a & b & H & _). destruct a; discriminate. }
  set (s := c :: r). unfold readString. change (match s with [] => None | _ :: _ => _ end) with
    (match indexByte delimString s with
      | None => None | Some O => Some O
      | Some (S i) => if beqb (nth i s x00) delimEscape
          then scanQuote (skipn (i + 2) s) (i + 2) else Some (S i) end).
  clearbody s. clear c r.
  destruct (indexByte delimString s) as [p|] eqn:E.
  - apply indexByte_spec in E as (a & b & -> & Hn & <-).
    destruct (snoc_cases a) as [->|(u & x & ->)].
    + simpl. split.
      * injection 1 as <-. exists [], b. repeat split; auto. apply ls_plain; auto.
        intros u H; destruct u; discriminate.
      * intros (a' & b' & H & Ha & <-). destruct a' as [|y a']; auto.
        simpl in H. injection H as <- ->. exfalso. inversion Ha; subst.
        -- apply H; left; reflexivity.
        -- destruct a; simpl in *; injection H; intros; try discriminate. subst. apply H0; left; auto.
    + rewrite app_length. simpl length. rewrite Nat.add_1_r.
      rewrite <- app_assoc. simpl app.
      rewrite app_nth2, Nat.sub_diag by lia. simpl nth.
      unfold delimEscape, delimString in *. destruct (beqb_spec x x5c) as [->|Hx].
      * rewrite scanQuote_shift.
        replace (skipn (length u + 2) (u ++ x5c :: x22 :: b)) with b.
        2:{ change (u ++ x5c :: x22 :: b) with (u ++ ([x5c; x22] ++ b)). rewrite app_assoc.
            symmetry; apply skipn_app_exact. rewrite app_length; reflexivity. }
        split.
        -- destruct (scanQuote b 0) as [j|] eqn:Es; simpl; [|congruence]. injection 1 as <-.
           apply scanQuote_spec in Es as (a' & b' & -> & Ha & <-).
           exists (u ++ x5c :: x22 :: a'), b'. rewrite <- app_assoc. repeat split.
           ++ apply ls_esc; auto. intro; apply Hn; apply in_or_app; auto.
           ++ rewrite app_length; simpl; lia.
        -- intros (a' & b' & H & Ha & <-).
           inversion Ha as [w Hw Hl | a0 b0 Ha0 Hb0]; subst.
           ++ exfalso.
              change (u ++ x5c :: x22 :: b) with (u ++ ([x5c] ++ x22 :: b)) in H.
              rewrite app_assoc in H.
              apply app_eq_app in H as (l & [[E1 E2]|[E1 E2]]).
              ** destruct l as [|y l]; simpl in E2; [rewrite app_nil_r in E1; subst; eapply Hl; eauto|].
                 injection E2; intros; subst. apply Hn. try rewrite E1. apply in_or_app; right; left; auto.
              ** destruct l as [|y l]; simpl in E2; [rewrite app_nil_r in E1; subst; eapply Hl; eauto|].
                 injection E2; intros; subst. apply Hw. try rewrite E1. apply in_or_app; right; left; auto.
           ++ assert (u = a0 /\ b = b0 ++ x22 :: b') as [-> ->].
              { rewrite <- app_assoc in H. simpl in H.
                apply app_eq_app in H as (l & [[E1 E2]|[E1 E2]]).
                - destruct l as [|y l]; simpl in E2.
                  + injection E2 as ->. rewrite app_nil_r in E1. auto.
                  + exfalso. destruct l as [|z l]; simpl in E2; injection E2; intros.
                    * discriminate.
                    * subst. apply Hn. apply in_or_app; left. apply in_or_app; right. right; left; auto.
                - destruct l as [|y l]; simpl in E2.
                  + injection E2 as ->. rewrite app_nil_r in E1. auto.
                  + exfalso. destruct l as [|z l]; simpl in E2; injection E2; intros.
                    * discriminate.
                    * subst. apply Ha0. apply in_or_app; right. right; left; auto. }
              assert (scanQuote (b0 ++ x22 :: b') 0 = Some (length b0)) as ->.
              { apply scanQuote_spec. exists b0, b'; auto. }
              simpl. f_equal. rewrite app_length; simpl; lia.
      * split.
        -- injection 1 as <-. exists (u ++ [x]), b. rewrite <- app_assoc. repeat split; auto.
           ++ apply ls_plain; auto. intros v Hv. apply app_inj_tail in Hv as [_ ->]. congruence.
           ++ rewrite app_length; simpl; lia.
        -- intros (a' & b' & H & Ha & <-). f_equal.
           replace (S (length u)) with (length (u ++ [x])) by (rewrite app_length; simpl; lia).
           change (u ++ x :: x22 :: b) with (u ++ ([x] ++ x22 :: b)) in H. rewrite app_assoc in H.
           apply app_eq_app in H as (l & [[E1 E2]|[E1 E2]]).
           ++ destruct l as [|y l]; simpl in E2; [rewrite app_nil_r in E1; congruence|].
              injection E2; intros; subst. exfalso. apply Hn. try rewrite E1. apply in_or_app; right; left; auto.
           ++ destruct l as [|y l]; simpl in E2; [rewrite app_nil_r in E1; congruence|].
              injection E2; intros; subst. exfalso.
              inversion Ha as [w Hw Hl | a0 b0 Ha0 Hb0]; subst.
              ** apply Hw. apply in_or_app; right; left; auto.
              ** clear E2. apply app_eq_app in H as (k & [[F1 F2]|[F1 F2]]).
                 --- destruct k as [|y k]; simpl in F2; [discriminate|].
                     injection F2; intros; subst. apply Ha0. apply in_or_app; right; left; auto.
                 --- destruct k as [|y k]; simpl in F2; [discriminate|].
                     injection F2 as <- F2. destruct k as [|z k]; simpl in F2.
                     +++ apply app_inj_tail in F1 as [_ F1]. congruence.
                     +++ injection F2; intros; subst. apply Hn. rewrite F1.
                         apply in_or_app; right; right; left; auto.
  - split; [congruence|]. intros (a & b & -> & _). apply indexByte_none in E. exfalso; apply E.
    apply in_or_app; right; left; auto.
Qed.

(* ---- numbers ---- *)

Lemma readNumber_spec s :
  exists w t, s = w ++ t /\ length w = readNumber s /\ Forall (fun b => ~ num_end b) w /\ num_stop t.
Proof.
  induction s as [|c r IH]; simpl.
  - exists [], []. simpl; auto.
  - rewrite tbl_numend. destruct (numendb c) eqn:E; simpl.
    + exists [], (c :: r). simpl. repeat split; auto. apply numendb_iff; auto.
    + destruct IH as (w & t & -> & Hl & Hw & Ht). exists (c :: w), t. simpl. rewrite Hl.
      repeat split; auto. constructor; auto. apply numendb_not; auto.
Qed.

Lemma readNumber_app w t :
  Forall (fun b => ~ num_end b) w -> num_stop t -> readNumber (w ++ t) = length w.
Proof.
  induction 1 as [|c w Hc Hw IH]; intro Ht; simpl.
  - destruct t as [|c r]; simpl; auto. rewrite tbl_numend. simpl in Ht. apply numendb_iff in Ht.
    rewrite Ht. reflexivity.
  - rewrite tbl_numend. apply numendb_not in Hc. rewrite Hc. simpl. f_equal; auto.
Qed.
