(* Lemmas about the memory model: reads after writes, and the effect relations. *)
From Coq Require Import Lia.
From Verif Require Import Bytes Tables Types Parser Doc DocProofs Api Mem MemSpec.

(* ---- lists ---- *)
Lemma overwrite_length : forall a off l, length (overwrite a off l) = length a.
Proof.
  induction a as [|x r IH]; intros off l; [reflexivity|]. simpl.
  destruct off; [destruct l|]; simpl; auto.
Qed.

Lemma overwrite_nth : forall a off l i,
  nth_error (overwrite a off l) i =
  if (off <=? i) && (i <? off + length l) && (i <? length a) then nth_error l (i - off) else nth_error a i.
Proof.
  induction a as [|x r IH]; intros off l i.
  - simpl. rewrite andb_false_r. reflexivity.
  - simpl. destruct off as [|o].
    + destruct l as [|y l].
      * simpl. replace (i <? 0) with false by (symmetry; apply Nat.ltb_ge; lia). reflexivity.
      * destruct i as [|i]; [reflexivity|]. simpl. rewrite IH. simpl.
        rewrite Nat.sub_0_r. reflexivity.
    + destruct i as [|i]; [reflexivity|]. simpl. rewrite IH. reflexivity.
Qed.

Lemma overwrite_nil : forall a off, overwrite a off [] = a.
Proof. induction a as [|x r IH]; intros [|o]; simpl; try reflexivity. rewrite IH. reflexivity. Qed.

Lemma overwrite_window : forall a off l, off + length l <= length a ->
  overwrite a off l = firstn off a ++ l ++ skipn (off + length l) a.
Proof.
  induction a as [|x r IH]; intros off l H; simpl in *.
  - destruct l; simpl in H; [|lia]. destruct off; [|lia]. reflexivity.
  - destruct off as [|o].
    + destruct l as [|y l]; [reflexivity|]. simpl. rewrite IH by (simpl in H; lia). reflexivity.
    + simpl. rewrite IH by lia. reflexivity.
Qed.

Lemma nth_replaceNth : forall {A} (l : list A) i j x d,
  nth j (replaceNth l i x) d = if (i =? j) && (i <? length l) then x else nth j l d.
Proof.
  induction l as [|y r IH]; intros i j x d; simpl.
  - rewrite andb_false_r. reflexivity.
  - destruct i as [|i], j as [|j]; simpl; try reflexivity. rewrite IH. reflexivity.
Qed.

Lemma nth_error_replaceNth : forall {A} (l : list A) i j x,
  nth_error (replaceNth l i x) j = if (i =? j) && (i <? length l) then Some x else nth_error l j.
Proof.
  induction l as [|y r IH]; intros i j x; simpl.
  - rewrite andb_false_r. reflexivity.
  - destruct i as [|i], j as [|j]; simpl; try reflexivity. rewrite IH. reflexivity.
Qed.

Lemma nth_error_ext : forall {A} (l l' : list A), (forall i, nth_error l i = nth_error l' i) -> l = l'.
Proof.
  induction l as [|x r IH]; intros [|y r'] H.
  - reflexivity.
  - specialize (H O). discriminate.
  - specialize (H O). discriminate.
  - f_equal.
    + specialize (H O). simpl in H. congruence.
    + apply IH. intro i. apply (H (S i)).
Qed.

Lemma nth_error_firstn : forall {A} (l : list A) n i,
  nth_error (firstn n l) i = if i <? n then nth_error l i else None.
Proof.
  induction l as [|x r IH]; intros n i; simpl.
  - rewrite firstn_nil. destruct (i <? n); destruct i; reflexivity.
  - destruct n as [|n]; simpl; [destruct i; reflexivity|].
    destruct i as [|i]; simpl; [reflexivity|]. rewrite IH. reflexivity.
Qed.

Lemma nth_error_skipn : forall {A} (l : list A) n i, nth_error (skipn n l) i = nth_error l (n + i).
Proof.
  induction l as [|x r IH]; intros n i; simpl.
  - rewrite skipn_nil. destruct (n + i), i; reflexivity.
  - destruct n; simpl; [reflexivity|]. apply IH.
Qed.

Lemma nth_error_repeat_inv : forall {A} (x : A) n i y, nth_error (repeat x n) i = Some y -> y = x.
Proof. intros. apply nth_error_In in H. apply repeat_spec in H. exact H. Qed.

(* ---- reading slots ---- *)
Definition own (h : heap) (a i : nat) : option nat :=
  match sget h (a, i) with Some s => sarr (svals s) | None => None end.

Definition inb (h : heap) (s : slice) : Prop :=
  match sarr s with
  | Some x => x < length (varrs h) /\ soff s + slen s <= length (varr h x)
  | None => slen s = 0
  end.

(* The records of array a have arrays of their own and slices within them. *)
Definition wf (h : heap) (a : nat) : Prop :=
  (forall i s, sget h (a, i) = Some s -> inb h (svals s)) /\
  (forall i j x, own h a i = Some x -> own h a j = Some x -> i = j).

Lemma wf_own_lt : forall h a i x, wf h a -> own h a i = Some x -> x < length (varrs h).
Proof.
  intros h a i x [W _] H. unfold own in H. destruct (sget h (a, i)) eqn:E; [|discriminate].
  apply W in E. unfold inb in E. rewrite H in E. apply E.
Qed.

Lemma sread_length : forall h s, inb h s -> length (sread h s) = slen s.
Proof.
  intros h s H. unfold sread, inb in *. destruct (sarr s).
  - rewrite firstn_length, skipn_length. lia.
  - simpl. lia.
Qed.

Lemma sread_nth : forall h s x i, sarr s = Some x ->
  nth_error (sread h s) i = if i <? slen s then nth_error (varr h x) (soff s + i) else None.
Proof.
  intros h s x i H. unfold sread. rewrite H. rewrite nth_error_firstn, nth_error_skipn. reflexivity.
Qed.

Lemma sread_same : forall h h' s, (forall x, sarr s = Some x -> varr h' x = varr h x) -> sread h' s = sread h s.
Proof. intros h h' s H. unfold sread. destruct (sarr s) as [x|]; [rewrite (H x eq_refl)|]; reflexivity. Qed.

(* ---- the primitive writes ---- *)
Lemma wset_narrs : forall h s l, narrs (wset h s l) = narrs h.
Proof. intros. unfold wset. destruct (sarr s); reflexivity. Qed.
Lemma wset_varrs_length : forall h s l, length (varrs (wset h s l)) = length (varrs h).
Proof. intros. unfold wset. destruct (sarr s); simpl; [apply replaceNth_length|reflexivity]. Qed.

Lemma wset_varr_other : forall h s l y, sarr s <> Some y -> varr (wset h s l) y = varr h y.
Proof.
  intros h s l y H. unfold wset, varr. destruct (sarr s) as [x|]; [|reflexivity]. simpl.
  rewrite nth_replaceNth. destruct (Nat.eqb_spec x y); [subst; congruence|reflexivity].
Qed.
Lemma wset_varr_same : forall h s l x, sarr s = Some x -> x < length (varrs h) ->
  varr (wset h s l) x = overwrite (varr h x) (soff s) l.
Proof.
  intros h s l x H L. unfold wset. rewrite H. unfold varr at 1. simpl.
  rewrite nth_replaceNth, Nat.eqb_refl. apply Nat.ltb_lt in L. rewrite L. reflexivity.
Qed.
Lemma wset_varr_length : forall h s l y, length (varr (wset h s l) y) = length (varr h y).
Proof.
  intros h s l y. unfold wset. destruct (sarr s) as [x|] eqn:E; [|reflexivity].
  unfold varr at 1. simpl. rewrite nth_replaceNth.
  destruct (Nat.eqb_spec x y); simpl; [|reflexivity]. subst.
  destruct (y <? length (varrs h)); [apply overwrite_length|reflexivity].
Qed.
Lemma wset_sget : forall h s l p, sget (wset h s l) p = sget h p.
Proof. intros. unfold sget, narr. rewrite wset_narrs. reflexivity. Qed.
Lemma wset_narr : forall h s l a, narr (wset h s l) a = narr h a.
Proof. intros. unfold narr. rewrite wset_narrs. reflexivity. Qed.

Lemma sput_varrs : forall h p x, varrs (sput h p x) = varrs h.
Proof. reflexivity. Qed.
Lemma sput_varr : forall h p x y, varr (sput h p x) y = varr h y.
Proof. reflexivity. Qed.
Lemma sput_narrs_length : forall h p x, length (narrs (sput h p x)) = length (narrs h).
Proof. intros. simpl. apply replaceNth_length. Qed.
Lemma sput_narr_other : forall h p x b, fst p <> b -> narr (sput h p x) b = narr h b.
Proof.
  intros h p x b H. unfold narr, sput. simpl. rewrite nth_replaceNth.
  destruct (Nat.eqb_spec (fst p) b); [congruence|reflexivity].
Qed.
Lemma sput_narr_length : forall h p x b, length (narr (sput h p x) b) = length (narr h b).
Proof.
  intros h p x b. destruct (Nat.eq_dec (fst p) b) as [E|E]; [|rewrite sput_narr_other by exact E; reflexivity].
  unfold narr, sput. simpl. rewrite nth_replaceNth, E, Nat.eqb_refl. simpl.
  destruct (b <? length (narrs h)); [apply replaceNth_length|reflexivity].
Qed.
Lemma sget_narr : forall h a i s, sget h (a, i) = Some s -> a < length (narrs h) /\ i < length (narr h a).
Proof.
  intros h a i s H. unfold sget in H. simpl in H. split.
  - destruct (Nat.lt_ge_cases a (length (narrs h))) as [L|L]; [exact L|].
    unfold narr in H. rewrite nth_overflow in H by exact L. destruct i; discriminate.
  - apply nth_error_Some. congruence.
Qed.
Lemma sput_sget : forall h a i x b j,
  sget (sput h (a, i) x) (b, j) =
  if (a =? b) && (i =? j) && (i <? length (narr h a)) then Some x else sget h (b, j).
Proof.
  intros h a i x b j. unfold sget. simpl.
  destruct (Nat.eqb_spec a b) as [E|E]; simpl.
  - subst b. unfold narr at 1. unfold sput. simpl. rewrite nth_replaceNth, Nat.eqb_refl. simpl.
    destruct (Nat.ltb_spec a (length (narrs h))) as [L|L].
    + rewrite nth_error_replaceNth. reflexivity.
    + unfold narr. rewrite nth_overflow by exact L. simpl.
      destruct j; rewrite andb_false_r; reflexivity.
  - rewrite sput_narr_other by exact E. reflexivity.
Qed.
Lemma sput_same : forall h a i x s, sget h (a, i) = Some s -> sget (sput h (a, i) x) (a, i) = Some x.
Proof.
  intros h a i x s H. rewrite sput_sget, !Nat.eqb_refl. apply sget_narr in H as [_ H].
  apply Nat.ltb_lt in H. rewrite H. reflexivity.
Qed.
Lemma sput_other : forall h a i x b j, (a, i) <> (b, j) -> sget (sput h (a, i) x) (b, j) = sget h (b, j).
Proof.
  intros h a i x b j H. rewrite sput_sget.
  destruct (Nat.eqb_spec a b), (Nat.eqb_spec i j); try reflexivity. subst. congruence.
Qed.

Lemma valloc_varr_old : forall h l h' x y, valloc h l = (h', x) -> y < length (varrs h) -> varr h' y = varr h y.
Proof.
  intros h l h' x y H L. unfold valloc in H. injection H as <- <-. unfold varr. simpl.
  apply app_nth1. exact L.
Qed.
Lemma valloc_varr_new : forall h l h' x, valloc h l = (h', x) -> varr h' x = l.
Proof.
  intros h l h' x H. unfold valloc in H. injection H as <- <-. unfold varr. simpl.
  rewrite app_nth2 by lia. rewrite Nat.sub_diag. reflexivity.
Qed.

(* ---- effect relations ---- *)
(* What work on the records from k on of array a may do: B separates old arrays of V from new. *)
Record frame (B : nat) (h : heap) (k a : nat) (h' : heap) : Prop := {
  f_B : B <= length (varrs h);
  f_vlen : length (varrs h) <= length (varrs h');
  f_vcap : forall x, x < length (varrs h) -> length (varr h' x) = length (varr h x);
  f_varr : forall x, x < B -> (forall i, k <= i -> own h a i <> Some x) -> varr h' x = varr h x;
  f_nlen : length (narrs h) <= length (narrs h');
  f_narr : forall b, b < length (narrs h) -> b <> a -> narr h' b = narr h b;
  f_acap : length (narr h' a) = length (narr h a);
  f_low : forall i, i < k -> sget h' (a, i) = sget h (a, i);
  f_own : forall i x, k <= i -> own h' a i = Some x -> own h a i = Some x \/ B <= x;
  f_wf : wf h' a
}.

(* The array in use afterwards is a' *)
Record eff (B : nat) (h : heap) (k a : nat) (h' : heap) (a' : nat) : Prop := {
  e_frame : frame B h k a h';
  e_new : a' = a \/ length (narrs h) <= a';
  e_lt : a' < length (narrs h');
  e_cap : length (narr h a) <= length (narr h' a');
  e_low : forall i, i < k -> sget h' (a', i) = sget h (a, i);
  e_own : forall i x, k <= i -> own h' a' i = Some x -> own h a i = Some x \/ B <= x;
  e_wf : wf h' a'
}.

Lemma own_low : forall h h' a a' i, sget h' (a', i) = sget h (a, i) -> own h' a' i = own h a i.
Proof. intros. unfold own. rewrite H. reflexivity. Qed.

Lemma sget_narr_eq : forall h h' a i, narr h' a = narr h a -> sget h' (a, i) = sget h (a, i).
Proof. intros. unfold sget. simpl. rewrite H. reflexivity. Qed.
Lemma own_narr_eq : forall h h' a i, narr h' a = narr h a -> own h' a i = own h a i.
Proof. intros. unfold own. rewrite (sget_narr_eq h h') by exact H. reflexivity. Qed.

Lemma inb_grow : forall h h' s, inb h s -> length (varrs h) <= length (varrs h') ->
  (forall x, x < length (varrs h) -> length (varr h' x) = length (varr h x)) -> inb h' s.
Proof.
  intros h h' s H L C. unfold inb in *. destruct (sarr s) as [x|]; [|exact H].
  destruct H as [H1 H2]. split; [lia|]. rewrite C by exact H1. exact H2.
Qed.

Lemma wf_narr_eq : forall h h' a, wf h a -> narr h' a = narr h a -> length (varrs h) <= length (varrs h') ->
  (forall x, x < length (varrs h) -> length (varr h' x) = length (varr h x)) -> wf h' a.
Proof.
  intros h h' a [W D] E L C. split.
  - intros i s H. rewrite (sget_narr_eq h h') in H by exact E. apply W in H. eapply inb_grow; eauto.
  - intros i j x H1 H2. rewrite (own_narr_eq h h') in H1, H2 by exact E. eapply D; eauto.
Qed.

Lemma own_grow_split : forall B h k a h' a' i x, eff B h k a h' a' -> own h' a' i = Some x ->
  own h a i = Some x \/ (k <= i /\ B <= x).
Proof.
  intros B h k a h' a' i x E H. destruct (Nat.lt_ge_cases i k) as [L|L].
  - left. rewrite <- H. symmetry. apply own_low. eapply e_low; eauto.
  - apply (e_own _ _ _ _ _ _ E i x L) in H. tauto.
Qed.

Lemma frame_refl : forall B h k a, B <= length (varrs h) -> wf h a -> frame B h k a h.
Proof. intros. constructor; auto. Qed.
Lemma eff_refl : forall B h k a, B <= length (varrs h) -> a < length (narrs h) -> wf h a -> eff B h k a h a.
Proof. intros. constructor; auto. apply frame_refl; auto. Qed.

Lemma frame_weaken : forall B B' h k k' a h', frame B' h k' a h' -> B <= B' -> k <= k' -> frame B h k a h'.
Proof.
  intros B B' h k k' a h' F HB Hk. destruct F. constructor; auto; try lia.
  - intros x L N. apply f_varr0; [lia|]. intros i Hi. apply N. lia.
  - intros i Hi. apply f_low0. lia.
  - intros i x Hi H. destruct (Nat.lt_ge_cases i k') as [L|L].
    + left. rewrite <- H. symmetry. apply own_low. auto.
    + apply f_own0 in H; [|exact L]. intuition lia.
Qed.
Lemma eff_weaken : forall B B' h k k' a h' a', eff B' h k' a h' a' -> B <= B' -> k <= k' -> eff B h k a h' a'.
Proof.
  intros B B' h k k' a h' a' E HB Hk. destruct E. constructor; auto.
  - eapply frame_weaken; eauto.
  - intros i Hi. apply e_low0. lia.
  - intros i x Hi H. destruct (Nat.lt_ge_cases i k') as [L|L].
    + left. rewrite <- H. symmetry. apply own_low. auto.
    + apply e_own0 in H; [|exact L]. intuition lia.
Qed.

Lemma frame_trans : forall B h k a h1 a1 h2, eff B h k a h1 a1 -> a < length (narrs h) ->
  frame B h1 k a1 h2 -> frame B h k a h2.
Proof.
  intros B h k a h1 a1 h2 E La F. destruct E as [F0 Hnew Hlt Hcap Hlow Hown Hwf]. destruct F0. destruct F.
  assert (Same : a1 = a \/ (a <> a1 /\ narr h2 a = narr h1 a)).
  { destruct Hnew as [->|Hn]; [left; reflexivity|right]. split; [lia|]. apply f_narr1; lia. }
  constructor; try lia.
  - intros x Hx. rewrite f_vcap1 by lia. auto.
  - intros x Hx N. rewrite f_varr1; [|lia|].
    + auto.
    + intros i Hi K. apply Hown in K; [|exact Hi]. destruct K as [K|K]; [|lia]. exact (N i Hi K).
  - intros b Hb N. rewrite f_narr1; [auto|lia|]. intros ->. lia.
  - destruct Same as [->|[_ Hs]]; [lia|]. rewrite Hs. exact f_acap0.
  - intros i Hi. destruct Same as [->|[_ Hs]].
    + rewrite f_low1 by exact Hi. auto.
    + rewrite (sget_narr_eq h1 h2) by exact Hs. auto.
  - intros i x Hi H. destruct Same as [->|[_ Hs]].
    + apply f_own1 in H; [|exact Hi]. destruct H as [H|H]; [auto|right; exact H].
    + rewrite (own_narr_eq h1 h2) in H by exact Hs. auto.
  - destruct Same as [->|[_ Hs]]; [exact f_wf1|]. eapply wf_narr_eq; eauto.
Qed.

Lemma eff_trans : forall B h k a h1 a1 h2 a2, eff B h k a h1 a1 -> a < length (narrs h) ->
  eff B h1 k a1 h2 a2 -> eff B h k a h2 a2.
Proof.
  intros B h k a h1 a1 h2 a2 E1 La E2.
  assert (F : frame B h k a h2) by (eapply frame_trans; eauto; apply E2).
  destruct E1 as [F1 Hnew Hlt Hcap Hlow Hown Hwf]. destruct F1. destruct E2. constructor; auto; try lia.
  - intros i Hi. rewrite e_low0 by exact Hi. auto.
  - intros i x Hi H. apply e_own0 in H; [|exact Hi]. destruct H as [H|H]; [auto|right; exact H].
Qed.
