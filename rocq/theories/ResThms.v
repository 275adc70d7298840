(* The cost of a parsed text. *)
From Verif Require Import Bytes Tables Types JsonSpec DocSpec Parser Doc LexProofs ParserProofs ParserThms ResSpec.

Lemma values_jsize v : values_in v = jsize v.
Proof.
  induction v using jval_ind'; auto; cbn [values_in jsize]; simpl; f_equal; induction H; simpl; auto; congruence.
Qed.

(* ---- the table against the text ---- *)

Lemma list_sum_app a b : list_sum (a ++ b) = list_sum a + list_sum b.
Proof. induction a; simpl; lia. Qed.

Lemma slots_cons n l : slots (n :: l) = length (nvalues n) + slots l.
Proof. reflexivity. Qed.
Lemma slots_app a b : slots (a ++ b) = slots a + slots b.
Proof. unfold slots. rewrite map_app, list_sum_app. reflexivity. Qed.
Lemma text_cons n l : textbytes (n :: l) = length (nraw n) + keybytes (nvalues n) + textbytes l.
Proof. reflexivity. Qed.
Lemma text_app a b : textbytes (a ++ b) = textbytes a + textbytes b.
Proof. unfold textbytes. rewrite map_app, list_sum_app. reflexivity. Qed.

Lemma arrVs_length vs : forall b, length (arrVs b vs) = length vs.
Proof. induction vs; simpl; auto. Qed.
Lemma objVs_length ms : forall b, length (objVs b ms) = length ms.
Proof. induction ms as [|[k v] ms IH]; simpl; auto. Qed.
Lemma arrVs_keys vs : forall b, keybytes (arrVs b vs) = 0.
Proof. induction vs as [|v vs IH]; intro b; auto. apply IH. Qed.
Lemma objVs_keys ms : forall b, keybytes (objVs b ms) = list_sum (map (fun m => length (fst m)) ms).
Proof. induction ms as [|[k v] ms IH]; intro b; auto. unfold keybytes in *. simpl. f_equal. apply IH. Qed.

Lemma layout_slots v : forall base, S (slots (layout base v)) = jsize v.
Proof.
  induction v using jval_ind'; intros base; try reflexivity.
  - rewrite layout_arr, slots_cons. cbn [nvalues jsize]. rewrite arrVs_length. generalize (base + 1)%N.
    induction H; intros b; auto. simpl. rewrite slots_app. specialize (H b). specialize (IHForall (b + N.of_nat (jsize x))%N). lia.
  - rewrite layout_obj, slots_cons. cbn [nvalues jsize]. rewrite objVs_length. generalize (base + 1)%N.
    induction H; intros b; auto. simpl. rewrite slots_app. specialize (H b). specialize (IHForall (b + N.of_nat (jsize (snd x)))%N). lia.
Qed.

(* The bytes of the tokens of a tree. *)
Fixpoint toks (v : jval) : nat :=
  match v with
  | JStr w | JNum w => length w
  | JFalse => 5
  | JTrue | JNull => 4
  | JArr vs => list_sum (map toks vs)
  | JObj ms => list_sum (map (fun m => length (fst m) + toks (snd m)) ms)
  end.

Lemma layout_text v : forall base, textbytes (layout base v) = toks v.
Proof.
  induction v using jval_ind'; intros base; try (unfold textbytes, keybytes; simpl; lia).
  - rewrite layout_arr, text_cons. cbn [nvalues nraw length toks]. rewrite arrVs_keys. generalize (base + 1)%N.
    induction H; intros b; auto. simpl. rewrite text_app, H. specialize (IHForall (b + N.of_nat (jsize x))%N). lia.
  - rewrite layout_obj, text_cons. cbn [nvalues nraw length toks]. rewrite objVs_keys. generalize (base + 1)%N.
    induction H; intros b; auto. simpl. rewrite text_app, H. specialize (IHForall (b + N.of_nat (jsize (snd x)))%N). lia.
Qed.

Lemma rootflag_slots l : slots (rootflag l) = slots l.
Proof. destruct l; reflexivity. Qed.
Lemma rootflag_text l : textbytes (rootflag l) = textbytes l.
Proof. destruct l; reflexivity. Qed.

Ltac lens := repeat (rewrite app_length || cbn [length]); simpl in *; lia.

Lemma cost_grammar :
  (forall v w, lenient_value v w -> 2 * jsize v <= S (length w) /\ toks v <= length w) /\
  (forall vs w, elements ws lenient_string esc_content lenient_number vs w ->
     2 * list_sum (map jsize vs) <= S (length w) /\ list_sum (map toks vs) <= length w) /\
  (forall ms w, members ws lenient_string esc_content lenient_number ms w ->
     2 * list_sum (map (fun m => jsize (snd m)) ms) <= S (length w) /\
     list_sum (map (fun m => length (fst m) + toks (snd m)) ms) <= length w).
Proof.
  apply grammar_mind; intros; cbn [jsize toks] in *; try (split; lens).
  match goal with H : lenient_number _ |- _ => destruct H as (c & w0 & -> & _) end. split; lens.
Qed.

Lemma drop_ws_length w w' : drop_ws w w' -> length w' <= length w.
Proof. induction 1; simpl; lia. Qed.

(* ---- every new node hangs under the one returned ---- *)

Lemma reach_mono T T' : (forall a n, getNode T a = Some n -> exists n', getNode T' a = Some n' /\ nvalues n' = nvalues n) ->
  forall a b, reach T a b -> reach T' a b.
Proof.
  intros M a b R. induction R as [|a n v b E Hv R IH]; [constructor|].
  destruct (M _ _ E) as (n' & E' & V). eapply reach_step; eauto. rewrite V. exact Hv.
Qed.

Lemma getNode_here pre n post : getNode (pre ++ n :: post) (lenN pre) = Some n.
Proof.
  rewrite getNode_app2 by lia. rewrite N.sub_diag. unfold getNode. rewrite lenN_cons.
  destruct (N.ltb_spec 0 (1 + lenN post)); [reflexivity|lia].
Qed.

Lemma lenN_snoc {A} (l : list A) x : lenN (l ++ [x]) = (lenN l + 1)%N.
Proof. unfold lenN. rewrite app_length. simpl. lia. Qed.

Lemma reach_layout v : forall pre post x,
  (lenN pre <= x < lenN pre + N.of_nat (jsize v))%N -> reach (pre ++ layout (lenN pre) v ++ post) (lenN pre) x.
Proof.
  assert (Leaf : forall pre post n x, (lenN pre <= x < lenN pre + N.of_nat 1)%N -> reach (pre ++ [n] ++ post) (lenN pre) x).
  { intros pre post n x Hx. replace x with (lenN pre) by lia. constructor. }
  induction v using jval_ind'; intros pre post x Hx; try (apply Leaf; exact Hx).
  - rewrite layout_arr. cbn [jsize] in Hx. destruct (N.eq_dec x (lenN pre)) as [->|Nx]; [constructor|].
    assert (G : forall all1 l p2 y, Forall (fun v => forall pre post x, (lenN pre <= x < lenN pre + N.of_nat (jsize v))%N ->
                   reach (pre ++ layout (lenN pre) v ++ post) (lenN pre) x) l ->
               (lenN all1 <= y < lenN all1 + N.of_nat (list_sum (map jsize l)))%N ->
               exists u, In u (arrVs (lenN all1) l) /\ reach (all1 ++ layouts (lenN all1) l ++ p2) (vid u) y).
    { intros all1 l. revert all1. induction l as [|v l IH]; intros all1 p2 y F Hy; [simpl in Hy; lia|]. inversion F; subst. simpl in Hy.
      destruct (N.lt_ge_cases y (lenN all1 + N.of_nat (jsize v))) as [Lt|Ge].
      - exists (mkV (lenN all1) []). split; [left; auto|]. cbn [layouts vid]. rewrite <- app_assoc. apply H2. lia.
      - specialize (IH (all1 ++ layout (lenN all1) v) p2 y H3).
        assert (L : lenN (all1 ++ layout (lenN all1) v) = (lenN all1 + N.of_nat (jsize v))%N) by (rewrite lenN_app; unfold lenN at 2; rewrite layout_length; lia).
        rewrite L in IH. destruct IH as (u & Hu & R); [lia|]. exists u. split; [right; exact Hu|].
        cbn [layouts]. rewrite <- !app_assoc in *. exact R. }
    destruct (G (pre ++ [mkNode vArray [] (arrVs (lenN pre + 1) vs)]) vs post x H) as (u & Hu & R).
    { rewrite lenN_snoc. lia. }
    rewrite lenN_snoc in Hu, R.
    rewrite <- app_assoc in R. cbn [app] in R |- *. eapply reach_step; [apply getNode_here|exact Hu|exact R].
  - rewrite layout_obj. cbn [jsize] in Hx. destruct (N.eq_dec x (lenN pre)) as [->|Nx]; [constructor|].
    assert (G : forall all1 l p2 y, Forall (fun m : bytes * jval => forall pre post x, (lenN pre <= x < lenN pre + N.of_nat (jsize (snd m)))%N ->
                   reach (pre ++ layout (lenN pre) (snd m) ++ post) (lenN pre) x) l ->
               (lenN all1 <= y < lenN all1 + N.of_nat (list_sum (map (fun m => jsize (snd m)) l)))%N ->
               exists u, In u (objVs (lenN all1) l) /\ reach (all1 ++ layoutm (lenN all1) l ++ p2) (vid u) y).
    { intros all1 l. revert all1. induction l as [|[k v] l IH]; intros all1 p2 y F Hy; [simpl in Hy; lia|]. inversion F; subst. simpl in Hy, H2.
      destruct (N.lt_ge_cases y (lenN all1 + N.of_nat (jsize v))) as [Lt|Ge].
      - exists (mkV (lenN all1) k). split; [left; auto|]. cbn [layoutm vid snd]. rewrite <- app_assoc. apply H2. lia.
      - specialize (IH (all1 ++ layout (lenN all1) v) p2 y H3).
        assert (L : lenN (all1 ++ layout (lenN all1) v) = (lenN all1 + N.of_nat (jsize v))%N) by (rewrite lenN_app; unfold lenN at 2; rewrite layout_length; lia).
        rewrite L in IH. destruct IH as (u & Hu & R); [lia|]. exists u. split; [right; exact Hu|].
        cbn [layoutm snd]. rewrite <- !app_assoc in *. exact R. }
    destruct (G (pre ++ [mkNode vObject [] (objVs (lenN pre + 1) ms)]) ms post x H) as (u & Hu & R).
    { rewrite lenN_snoc. lia. }
    rewrite lenN_snoc in Hu, R.
    rewrite <- app_assoc in R. cbn [app] in R |- *. eapply reach_step; [apply getNode_here|exact Hu|exact R].
Qed.

Lemma rootflag_getNode ns l a n : getNode (ns ++ l) a = Some n ->
  exists n', getNode (ns ++ rootflag l) a = Some n' /\ nvalues n' = nvalues n.
Proof.
  intro E. destruct (N.lt_ge_cases a (lenN ns)) as [Lt|Ge].
  - exists n. split; auto. unfold getNode in *. rewrite lenN_app in *. unfold lenN in *. rewrite rootflag_length.
    destruct (N.ltb_spec a (N.of_nat (length ns) + N.of_nat (length l))); [|discriminate].
    rewrite nth_error_app1 in * by lia. exact E.
  - rewrite getNode_app2 in * by auto. destruct l as [|x l]; [exists n; split; [exact E|reflexivity]|]. unfold getNode in *. unfold lenN in *. rewrite rootflag_length.
    destruct (_ <? _)%N; [|discriminate]. destruct (N.to_nat (a - N.of_nat (length ns))) as [|k]; simpl in *; [|eauto].
    injection E as <-. eexists. split; [reflexivity|reflexivity].
Qed.

Lemma C75_lem W r s W' n tail :
  Document_Parse W r s = Ok (W', (n, tail, None)) ->
  exists d new s1 w v,
    nth_error W r = Some d /\ W' = putDoc W r (mkDoc (dnodes d ++ new) (drev d)) /\
    s = s1 ++ w ++ tail /\ ws s1 /\ lenient_value v w /\ tree_of W' n v /\
    length new = values_in v /\ S (slots new) = length new /\
    2 * length new <= S (length w) /\ textbytes new <= length w /\
    (forall x, (nid n <= x < nid n + N.of_nat (length new))%N -> reach (dnodes d ++ new) (nid n) x).
Proof.
  intro H. apply Parse_ok_iff in H as (d & s1 & w & v & Ed & -> & K1 & K2 & K3 & -> & ->).
  exists d, (rootflag (layout (lenN (dnodes d)) v)), s1, w, v.
  destruct (proj1 cost_grammar _ _ K2) as (A & B).
  assert (L : length (rootflag (layout (lenN (dnodes d)) v)) = jsize v) by (rewrite rootflag_length; apply layout_length).
  repeat (split; [solve [auto]|]).
  split; [apply parsed_tree; auto|]. rewrite values_jsize. split; [exact L|].
  split; [rewrite rootflag_slots, L; apply layout_slots|]. split; [lia|].
  split; [rewrite rootflag_text, layout_text; exact B|].
  rewrite L. cbn [nid]. intros x Hx. eapply reach_mono; [intros a m; apply rootflag_getNode|].
  pose proof (reach_layout v (dnodes d) [] x Hx) as R. rewrite app_nil_r in R. exact R.
Qed.

Lemma C75_out_lem W r s W' n tail dst :
  Document_Parse W r s = Ok (W', (n, tail, None)) ->
  exists out, Node_AppendJSON W' n dst = Ok (dst ++ out, None) /\ length out + length tail <= length s.
Proof.
  intro H. destruct (C08_ok _ _ _ _ _ _ dst H) as (s1 & w & v & out & -> & _ & _ & A & D & _).
  exists out. split; auto. apply drop_ws_length in D. rewrite !app_length. lia.
Qed.

(* ---- the depth is not bounded ---- *)

Fixpoint nested (k : nat) : jval := match k with O => JArr [] | S k => JArr [nested k] end.
Fixpoint brackets (k : nat) : bytes := match k with O => [x5b; x5d] | S k => x5b :: brackets k ++ [x5d] end.

Lemma nested_text k : rfc_value_plain (nested k) (brackets k).
Proof.
  induction k as [|k IH]; [apply (v_arr0 _ _ _ _ []); constructor|].
  apply v_arr. pose proof (el_one ws (fun w => rfc_chars w /\ plain_end w) rfc_chars rfc_number [] _ _ [] (Forall_nil _) IH (Forall_nil _)) as E.
  rewrite app_nil_r in E. exact E.
Qed.

Lemma C75_deep_lem W r k : r < length W -> exists s W' n v,
  length s = 2 * S k /\ Document_Parse W r s = Ok (W', (n, [], None)) /\ tree_of W' n v /\ depth v = S k.
Proof.
  intro Hr. assert (W0 : ws []) by constructor.
  destruct (C01_ok W r (nested k) [] (brackets k) [] Hr (nested_text k) W0) as (W' & n & P & T); [destruct k; discriminate|].
  rewrite app_nil_r in P. exists (brackets k), W', n, (nested k). split; [|split; [exact P|split; [exact T|]]].
  - clear. induction k as [|k IH]; auto. simpl brackets. cbn [length]. rewrite app_length, IH. simpl. lia.
  - clear. induction k as [|k IH]; auto. simpl in *. rewrite IH. lia.
Qed.

(* The depth a text can reach. *)
Lemma list_max_le {A} (f g : A -> nat) l : Forall (fun x => f x <= g x) l -> list_max (map f l) <= list_sum (map g l).
Proof. induction 1; simpl; [auto|]. unfold list_max in *. lia. Qed.

Lemma C75_depth_lem W r s W' n tail v : Document_Parse W r s = Ok (W', (n, tail, None)) -> tree_of W' n v -> 2 * depth v <= S (length s).
Proof.
  intros H T. apply C75_lem in H as (d & new & s1 & w & v' & _ & _ & -> & _ & K & T' & L & _ & B & _).
  assert (v' = v) as <- by (eapply tree_of_det; eauto).
  assert (D : forall v, depth v <= values_in v).
  { clear. intro v. induction v using jval_ind'; simpl; auto; apply le_n_S; apply list_max_le; auto. }
  specialize (D v'). rewrite !app_length. lia.
Qed.
