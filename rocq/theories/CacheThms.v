(* Lemmas for C47. *)
From Coq Require Import Permutation.
From Verif Require Import Bytes Cache CacheSpec.

Definition isReader (p : pc) : bool := match p with Reading _ | Read _ _ => true | _ => false end.
Definition isWaiting (p : pc) : bool := match p with Waiting _ _ => true | _ => false end.
Definition isCrit (p : pc) : bool := match p with Checking _ _ | Making _ _ | Storing _ _ | Leaving _ _ => true | _ => false end.
Definition b2n (b : bool) : nat := if b then 1 else 0.
Definition nreaders (l : list thread) : nat := length (filter (fun th => isReader (at_ th)) l).

Lemma replace_nth l : forall t x th, nth_error l t = Some th -> forall t', nth_error (replace l t x) t' = if Nat.eqb t t' then Some x else nth_error l t'.
Proof.
  induction l as [|y l IH]; intros [|t] x th H t'; cbn in H; try discriminate.
  - destruct t'; reflexivity.
  - destruct t'; [reflexivity|]. cbn. apply (IH t x th H t').
Qed.
Lemma replace_count l : forall t x th, nth_error l t = Some th -> nreaders (replace l t x) + b2n (isReader (at_ th)) = nreaders l + b2n (isReader (at_ x)).
Proof.
  unfold nreaders. induction l as [|y l IH]; intros [|t] x th H; cbn in H; try discriminate.
  - injection H as ->. cbn [replace filter]. destruct (isReader (at_ x)), (isReader (at_ th)); cbn [length b2n]; lia.
  - specialize (IH t x th H). cbn [replace filter]. destruct (isReader (at_ y)); cbn [length]; lia.
Qed.

(* what is known about the goroutine's position *)
Definition knows (P : request -> inst -> Prop) (st : cstate) (p : pc) : Prop :=
  match p with
  | Read q (Some i) | Unlocked q (Some i) | Leaving q i => look st q = Some i
  | Built q i | Waiting q i | Checking q i => P q i
  | Making q i => P q i /\ look st q = None
  | Storing q i => P q i /\ look st q = None /\ cmap st (fst q) <> None
  | _ => True
  end.
Record inv (P : request -> inst -> Prop) (st : cstate) : Prop := mkI {
  i_readers : readers (clock st) = nreaders (threads st);
  i_wait : forall t th, nth_error (threads st) t = Some th -> isWaiting (at_ th) = true <-> wstate (clock st) = WWaits t;
  i_crit : forall t th, nth_error (threads st) t = Some th -> isCrit (at_ th) = true <-> wstate (clock st) = WHolds t;
  i_range : match wstate (clock st) with WFree => True | WWaits t | WHolds t => t < length (threads st) end;
  i_hold : match wstate (clock st) with WHolds _ => readers (clock st) = 0 | _ => True end;
  i_know : forall t th, nth_error (threads st) t = Some th -> knows P st (at_ th);
  i_log : forall q i, In (q, RGot i) (log st) -> look st q = Some i;
  i_typed : forall q i, look st q = Some i -> P q i
}.

Lemma look_set st q i q' : cmap st (fst q) = Some (match cmap st (fst q) with Some m => m | None => [] end) ->
  look (setMap st (fst q) (Some ((snd q, i) :: match cmap st (fst q) with Some m => m | None => [] end))) q' = if match fst q, fst q' with KDec, KDec | KEnc, KEnc => Nat.eqb (snd q') (snd q) | _, _ => false end then Some i else look st q'.
Proof.
  intro H. unfold look in *. destruct q as [[] t], q' as [[] t']; cbn in *; try reflexivity; rewrite H; cbn [find]; destruct (Nat.eqb t' t); reflexivity.
Qed.
Lemma req_eq (q q' : request) : match fst q, fst q' with KDec, KDec | KEnc, KEnc => Nat.eqb (snd q') (snd q) | _, _ => false end = true -> q' = q.
Proof. destruct q as [[] t], q' as [[] t']; cbn; intro H; try discriminate; apply Nat.eqb_eq in H; congruence. Qed.
Lemma req_refl (q : request) : match fst q, fst q with KDec, KDec | KEnc, KEnc => Nat.eqb (snd q) (snd q) | _, _ => false end = true.
Proof. destruct q as [[] t]; cbn; apply Nat.eqb_refl. Qed.

(* maps only grow *)
Definition grows (st st1 : cstate) : Prop := (forall q i, look st q = Some i -> look st1 q = Some i) /\ (forall k, cmap st k <> None -> cmap st1 k <> None).
Lemma knows_grows P st st1 p : grows st st1 -> isCrit p = false -> knows P st p -> knows P st1 p.
Proof. intros [G _] C K. destruct p as [|q|q|q [i|]|q [i|]|q i|q i|q i|q i|q i|q i]; cbn in *; try discriminate; auto. Qed.

(* A step that changes the thread t from position p to p', and the lock. *)
Lemma inv_step P st st1 t th x :
  inv P st -> nth_error (threads st) t = Some th -> threads st1 = replace (threads st) t x -> grows st st1 ->
  (forall q i, look st1 q = Some i -> P q i) -> (forall q i, In (q, RGot i) (log st1) -> look st1 q = Some i) -> knows P st1 (at_ x) ->
  readers (clock st1) + b2n (isReader (at_ th)) = readers (clock st) + b2n (isReader (at_ x)) ->
  (forall t', t' <> t -> (wstate (clock st1) = WWaits t' <-> wstate (clock st) = WWaits t') /\ (wstate (clock st1) = WHolds t' <-> wstate (clock st) = WHolds t')) ->
  (isWaiting (at_ x) = true <-> wstate (clock st1) = WWaits t) -> (isCrit (at_ x) = true <-> wstate (clock st1) = WHolds t) ->
  (match wstate (clock st1) with WHolds _ => readers (clock st1) = 0 | _ => True end) ->
  (isCrit (at_ th) = true \/ cdec st1 = cdec st /\ cenc st1 = cenc st) ->
  inv P st1.
Proof.
  intros [I1 I2 I3 I4 I5 I6 I7 I8] E T G Ty Lg K R Wo Ww Wc Wh Cr.
  pose proof (replace_nth _ _ x _ E) as Nth. rewrite <- T in Nth.
  assert (Lt : t < length (threads st)) by (apply nth_error_Some; congruence).
  assert (Len : length (threads st1) = length (threads st)). { rewrite T. generalize (threads st) t. induction l as [|y l IH]; intros [|n]; cbn; auto. }
  constructor; auto.
  - pose proof (replace_count _ _ x _ E) as C. rewrite <- T in C. lia.
  - intros t' th' E'. rewrite Nth in E'. destruct (Nat.eqb_spec t t') as [<-|N]; [injection E' as <-; exact Ww|]. rewrite (I2 t' th' E'). symmetry. apply Wo. auto.
  - intros t' th' E'. rewrite Nth in E'. destruct (Nat.eqb_spec t t') as [<-|N]; [injection E' as <-; exact Wc|]. rewrite (I3 t' th' E'). symmetry. apply Wo. auto.
  - destruct (wstate (clock st1)) as [|t'|t'] eqn:S; [exact I| |]; rewrite Len; destruct (Nat.eq_dec t' t) as [->|N]; auto; destruct (Wo t' N) as [A B].
    + rewrite (proj1 A eq_refl) in I4. exact I4.
    + rewrite (proj1 B eq_refl) in I4. exact I4.
  - intros t' th' E'. rewrite Nth in E'. destruct (Nat.eqb_spec t t') as [<-|N]; [injection E' as <-; exact K|]. specialize (I6 t' th' E').
    destruct Cr as [Cr|(C1 & C2)].
    + apply (knows_grows P st); auto. apply (I3 t th E) in Cr. destruct (isCrit (at_ th')) eqn:Q; auto. apply (I3 t' th' E') in Q. congruence.
    + assert (Lk : forall q, look st1 q = look st q). { intro q. unfold look, cmap. rewrite C1, C2. reflexivity. }
      assert (Cm : forall k, cmap st1 k = cmap st k). { intro k. unfold cmap. rewrite C1, C2. reflexivity. }
      destruct (at_ th') as [|q|q|q [i|]|q [i|]|q i|q i|q i|q i|q i|q i]; cbn in *; rewrite ?Lk, ?Cm; auto.
Qed.

Lemma grows_same st st1 : cdec st1 = cdec st -> cenc st1 = cenc st -> grows st st1.
Proof. intros A B. assert (forall k, cmap st1 k = cmap st k) as C by (intros []; assumption). split; unfold look; intros; rewrite C; auto. Qed.
Lemma look_same st st1 : cdec st1 = cdec st -> cenc st1 = cenc st -> forall q, look st1 q = look st q.
Proof. intros A B q. unfold look, cmap. rewrite A, B. reflexivity. Qed.
Lemma log_app (l : list (request * outcome)) q o q' i : In (q', RGot i) (l ++ [(q, o)]) -> In (q', RGot i) l \/ q' = q /\ o = RGot i.
Proof. intro H. apply in_app_or in H as [H|[H|[]]]; [auto|]. injection H as -> ->. auto. Qed.

Section Steps.
  Variables (P : request -> inst -> Prop) (st : cstate) (t : tid) (th : thread).
  Hypotheses (I : inv P st) (E : nth_error (threads st) t = Some th).

  (* steps that leave the maps alone *)
  Lemma keep st1 x : threads st1 = replace (threads st) t x -> cdec st1 = cdec st -> cenc st1 = cenc st ->
    (forall q i, In (q, RGot i) (log st1) -> look st q = Some i) -> knows P st1 (at_ x) ->
    readers (clock st1) + b2n (isReader (at_ th)) = readers (clock st) + b2n (isReader (at_ x)) ->
    (forall t', t' <> t -> (wstate (clock st1) = WWaits t' <-> wstate (clock st) = WWaits t') /\ (wstate (clock st1) = WHolds t' <-> wstate (clock st) = WHolds t')) ->
    (isWaiting (at_ x) = true <-> wstate (clock st1) = WWaits t) -> (isCrit (at_ x) = true <-> wstate (clock st1) = WHolds t) ->
    (match wstate (clock st1) with WHolds _ => readers (clock st1) = 0 | _ => True end) -> inv P st1 /\ grows st st1.
  Proof.
    intros T A B Lg K R Wo Ww Wc Wh. pose proof (look_same st st1 A B) as L. pose proof (grows_same st st1 A B) as G. split; [|exact G].
    apply (inv_step P st st1 t th x); auto.
    - intros q i. rewrite L. apply (i_typed P st I).
    - intros q i H. rewrite L. auto.
  Qed.
  (* ... nor the writer *)
  Lemma keep2 st1 x : threads st1 = replace (threads st) t x -> cdec st1 = cdec st -> cenc st1 = cenc st ->
    (forall q i, In (q, RGot i) (log st1) -> look st q = Some i) -> knows P st1 (at_ x) ->
    readers (clock st1) + b2n (isReader (at_ th)) = readers (clock st) + b2n (isReader (at_ x)) ->
    wstate (clock st1) = wstate (clock st) -> isWaiting (at_ x) = isWaiting (at_ th) -> isCrit (at_ x) = isCrit (at_ th) ->
    (wstate (clock st) = WFree \/ readers (clock st1) <= readers (clock st)) -> inv P st1 /\ grows st st1.
  Proof.
    intros T A B Lg K R W Ww Wc Rd. apply (keep st1 x); auto.
    - intros t' N. rewrite W. tauto.
    - rewrite Ww, W. apply (i_wait P st I t th E).
    - rewrite Wc, W. apply (i_crit P st I t th E).
    - rewrite W. pose proof (i_hold P st I) as H. destruct (wstate (clock st)); auto. destruct Rd as [Rd|Rd]; [discriminate|]. lia.
  Qed.
End Steps.

Lemma inv_next P st t b st1 : inv P st -> (forall th q i, nth_error (threads st) t = Some th -> at_ th = Unlocked q None -> b = RGot i -> P q i) ->
  cstep st t b = Next st1 -> inv P st1 /\ grows st st1.
Proof.
  intros I Bd H. unfold cstep in H. destruct (nth_error (threads st) t) as [th|] eqn:E; [|discriminate].
  pose proof (i_know P st I t th E) as K. pose proof (i_wait P st I t th E) as Iw. pose proof (i_crit P st I t th E) as Ic.
  destruct (at_ th) as [|q|q|q d|q d|q i|q i|q i|q i|q i|q i] eqn:A; cbn [knows isWaiting isCrit] in K, Iw, Ic.
  - destruct (todo th) as [|q r] eqn:Td; [discriminate|]. injection H as <-. eapply (keep2 P st t th I E); try reflexivity; cbn; rewrite ?A; auto. apply (i_log P st I).
  - destruct (wstate (clock st)) eqn:W; try discriminate. injection H as <-. eapply (keep2 P st t th I E); try reflexivity; cbn; rewrite ?A; auto; try (apply (i_log P st I)); cbn; lia.
  - injection H as <-. eapply (keep2 P st t th I E); try reflexivity; cbn; rewrite ?A; auto; [apply (i_log P st I)|]. change (look (setThread st t _) q) with (look st q). destruct (look st q); [reflexivity|exact Logic.I].
  - destruct (readers (clock st)) as [|n] eqn:R; [discriminate|]. injection H as <-. eapply (keep2 P st t th I E); try reflexivity; cbn; rewrite ?A, ?R; auto; cbn; try lia. apply (i_log P st I).
  - destruct d as [i|].
    + injection H as <-. eapply (keep2 P st t th I E); try reflexivity; cbn; rewrite ?A; auto.
      intros q' j Hj. apply log_app in Hj as [Hj|[-> Hj]]; [apply (i_log P st I), Hj|]. injection Hj as <-. exact K.
    + destruct b as [i|]; injection H as <-; eapply (keep2 P st t th I E); try reflexivity; cbn; rewrite ?A; auto.
      * apply (i_log P st I).
      * apply (Bd th q i eq_refl A eq_refl).
      * intros q' j Hj. apply log_app in Hj as [Hj|[-> Hj]]; [apply (i_log P st I), Hj|discriminate].
  - destruct (wstate (clock st)) eqn:W; try discriminate. injection H as <-. eapply (keep P st t th I E); try reflexivity; cbn; rewrite ?A, ?W; auto.
    + apply (i_log P st I).
    + intros t' N. split; split; intro Q; try discriminate. congruence.
    + split; auto.
    + split; discriminate.
  - destruct (readers (clock st)) as [|n] eqn:R; [|discriminate]. injection H as <-. eapply (keep P st t th I E); try reflexivity; cbn; rewrite ?A, ?R; auto.
    + apply (i_log P st I).
    + intros t' N. rewrite (proj1 Iw eq_refl). split; split; intro Q; try discriminate; congruence.
    + split; discriminate.
    + split; auto.
  - destruct (look st q) as [j|] eqn:L; injection H as <-; eapply (keep2 P st t th I E); try reflexivity; cbn; rewrite ?A; auto; apply (i_log P st I).
  - destruct K as [K1 K2]. destruct (cmap st (fst q)) as [m|] eqn:M.
    + injection H as <-. eapply (keep2 P st t th I E); try reflexivity; cbn; rewrite ?A; auto; [apply (i_log P st I)|].
      split; [exact K1|]. split; [exact K2|]. intro Q. change (cmap st (fst q) = None) in Q. congruence.
    + injection H as <-. set (st1 := setThread (setMap st (fst q) (Some [])) t (mkT (todo th) (Storing q i))).
      assert (Lk : forall q', look st1 q' = look st q').
      { intro q'. unfold look, st1. destruct q as [[] ty], q' as [[] ty']; cbn in *; try reflexivity; rewrite M; reflexivity. }
      assert (Cm : cmap st1 (fst q) <> None) by (destruct q as [[] ty]; discriminate).
      assert (G : grows st st1). { split; [intros q' j; rewrite Lk; auto|]. intros k. destruct q as [[] ty], k; cbn; auto; discriminate. }
      assert (Ck : clock st1 = clock st /\ log st1 = log st /\ threads st1 = replace (threads st) t (mkT (todo th) (Storing q i))) by (destruct q as [[] ty]; auto). destruct Ck as (Ck1 & Ck2 & Ck3).
      split; [|exact G]. apply (inv_step P st st1 t th (mkT (todo th) (Storing q i))); auto; rewrite ?Ck1, ?Ck2; cbn [at_ isReader isWaiting isCrit b2n]; rewrite ?A; auto.
      * intros q' j. rewrite Lk. apply (i_typed P st I).
      * intros q' j Hj. rewrite Lk. apply (i_log P st I), Hj.
      * cbn [knows]. rewrite Lk. auto.
      * intros t' N. tauto.
      * apply (i_hold P st I).
  - destruct K as (K1 & K2 & K3). destruct (cmap st (fst q)) as [m|] eqn:M; [|congruence]. injection H as <-.
    set (st1 := setThread (setMap st (fst q) (Some ((snd q, i) :: m))) t (mkT (todo th) (Leaving q i))).
    assert (Lk : forall q', look st1 q' = if match fst q, fst q' with KDec, KDec | KEnc, KEnc => Nat.eqb (snd q') (snd q) | _, _ => false end then Some i else look st q').
    { intro q'. pose proof (look_set st q i q') as Ls. rewrite M in Ls. rewrite <- (Ls eq_refl). reflexivity. }
    assert (G : grows st st1).
    { split; [|intros k; destruct q as [[] ty], k; cbn; auto; discriminate]. intros q' j Hj. rewrite Lk. destruct (match fst q, fst q' with KDec, KDec | KEnc, KEnc => Nat.eqb (snd q') (snd q) | _, _ => false end) eqn:Q; [|exact Hj].
      apply req_eq in Q. subst q'. congruence. }
    assert (Ck : clock st1 = clock st /\ log st1 = log st /\ threads st1 = replace (threads st) t (mkT (todo th) (Leaving q i))) by (destruct q as [[] ty]; auto). destruct Ck as (Ck1 & Ck2 & Ck3).
    split; [|exact G]. apply (inv_step P st st1 t th (mkT (todo th) (Leaving q i))); auto; rewrite ?Ck1, ?Ck2; cbn [at_ isReader isWaiting isCrit b2n]; rewrite ?A; auto.
    + intros q' j. rewrite Lk. destruct (match fst q, fst q' with KDec, KDec | KEnc, KEnc => Nat.eqb (snd q') (snd q) | _, _ => false end) eqn:Q; [|apply (i_typed P st I)].
      apply req_eq in Q. subst q'. intro Qj. injection Qj as <-. exact K1.
    + intros q' j Hj. apply G. apply (i_log P st I), Hj.
    + cbn [knows]. rewrite Lk, req_refl. reflexivity.
    + intros t' N. tauto.
    + apply (i_hold P st I).
  - destruct (wstate (clock st)) as [|t'|t'] eqn:W; try discriminate. injection H as <-. eapply (keep P st t th I E); try reflexivity; cbn; rewrite ?A, ?W; auto.
    + intros q' j Hj. apply log_app in Hj as [Hj|[-> Hj]]; [apply (i_log P st I), Hj|]. injection Hj as <-. exact K.
    + pose proof (proj1 Ic eq_refl) as Q. injection Q as ->. intros t'' N. split; split; intro Q; try discriminate. congruence.
    + split; discriminate.
    + split; discriminate.
Qed.
Lemma inv_start P calls : inv P (cstart calls).
Proof.
  assert (O : forall t th, nth_error (threads (cstart calls)) t = Some th -> at_ th = Outside).
  { intros t th H. cbn in H. rewrite nth_error_map in H. destruct (nth_error calls t); [|discriminate]. injection H as <-. reflexivity. }
  constructor; cbn; auto.
  - unfold nreaders. induction calls as [|c calls IH]; [reflexivity|]. cbn. apply IH. intros t th H. apply (O (S t) th). exact H.
  - intros t th H. rewrite (O t th H). split; discriminate.
  - intros t th H. rewrite (O t th H). split; discriminate.
  - intros t th H. rewrite (O t th H). exact I.
  - intros q i [].
  - intros [[] ty] i; discriminate.
Qed.
Lemma inv_runs P st s st' : inv P st -> cruns_by P st s st' -> inv P st' /\ grows st st'.
Proof.
  intros I R. revert I. induction R as [st|st t b st1 s st2 H B R IH]; intro I; [split; [exact I|split; auto]|].
  destruct (inv_next P st t b st1 I B H) as (I1 & G1). destruct (IH I1) as (I2 & G2). split; [exact I2|]. split; [intros q i L; apply G2, G1, L|intros k L; apply G2, G1, L].
Qed.
Lemma runs_by st s st' : cruns st s st' -> cruns_by (fun _ _ => True) st s st'.
Proof. induction 1; econstructor; eauto. Qed.

Lemma same_lem calls s st q i j : cruns (cstart calls) s st -> In (q, RGot i) (log st) -> In (q, RGot j) (log st) -> i = j.
Proof. intros R Hi Hj. destruct (inv_runs _ _ _ _ (inv_start _ calls) (runs_by _ _ _ R)) as (I & _). apply (i_log _ _ I) in Hi, Hj. congruence. Qed.
Lemma kept_lem calls s st q i s' st' : cruns (cstart calls) s st -> In (q, RGot i) (log st) -> cruns st s' st' -> look st' q = Some i.
Proof.
  intros R Hi R'. destruct (inv_runs _ _ _ _ (inv_start _ calls) (runs_by _ _ _ R)) as (I & _). destruct (inv_runs _ _ _ _ I (runs_by _ _ _ R')) as (_ & G). apply G, (i_log _ _ I), Hi.
Qed.
Lemma typed_lem P calls s st q i : cruns_by P (cstart calls) s st -> In (q, RGot i) (log st) -> P q i.
Proof. intros R Hi. destruct (inv_runs _ _ _ _ (inv_start _ calls) R) as (I & _). apply (i_typed _ _ I), (i_log _ _ I), Hi. Qed.
Lemma count_pos l : forall t th, nth_error l t = Some th -> isReader (at_ th) = true -> nreaders l <> 0.
Proof.
  unfold nreaders. induction l as [|y l IH]; intros [|t] th H R; cbn in H; try discriminate.
  - injection H as ->. cbn. rewrite R. discriminate.
  - cbn. destruct (isReader (at_ y)); [discriminate|]. apply (IH t th H R).
Qed.
Lemma no_crash_lem calls s st t b : cruns (cstart calls) s st -> cstep st t b <> Crash.
Proof.
  intros R H. destruct (inv_runs _ _ _ _ (inv_start _ calls) (runs_by _ _ _ R)) as (I & _).
  unfold cstep in H. destruct (nth_error (threads st) t) as [th|] eqn:E; [|discriminate]. pose proof (i_know _ st I t th E) as K. pose proof (i_crit _ st I t th E) as Ic.
  destruct (at_ th) as [|q|q|q d|q [i|]|q i|q i|q i|q i|q i|q i] eqn:A; cbn in K, Ic.
  - destruct (todo th); discriminate.
  - destruct (wstate (clock st)); discriminate.
  - discriminate.
  - destruct (readers (clock st)) eqn:Rd; [|discriminate]. rewrite (i_readers _ st I) in Rd. revert Rd. apply (count_pos _ t th E). rewrite A. reflexivity.
  - discriminate.
  - destruct b; discriminate.
  - destruct (wstate (clock st)); discriminate.
  - destruct (readers (clock st)); discriminate.
  - destruct (look st q); discriminate.
  - destruct (cmap st (fst q)); discriminate.
  - destruct K as (_ & _ & K). destruct (cmap st (fst q)); [discriminate|congruence].
  - rewrite (proj1 Ic eq_refl) in H. discriminate.
Qed.
Lemma no_race_lem calls s st : cruns (cstart calls) s st -> ~ race st.
Proof.
  intros R (t1 & t2 & th1 & th2 & N & E1 & E2 & W & X). destruct (inv_runs _ _ _ _ (inv_start _ calls) (runs_by _ _ _ R)) as (I & _).
  assert (C1 : isCrit (at_ th1) = true) by (destruct (at_ th1); cbn in *; tauto). pose proof (proj1 (i_crit _ st I t1 th1 E1) C1) as H1.
  assert (X2 : isReader (at_ th2) = true \/ isCrit (at_ th2) = true) by (destruct (at_ th2); cbn in *; tauto). destruct X2 as [X2|X2].
  - pose proof (i_hold _ st I) as Hd. rewrite H1 in Hd. rewrite (i_readers _ st I) in Hd. revert Hd. apply (count_pos _ t2 th2 E2 X2).
  - apply (i_crit _ st I t2 th2 E2) in X2. congruence.
Qed.

(* ---- progress and termination ---- *)

Lemma count_ex l : nreaders l <> 0 -> exists t th, nth_error l t = Some th /\ isReader (at_ th) = true.
Proof.
  unfold nreaders. induction l as [|y l IH]; cbn; [contradiction|]. destruct (isReader (at_ y)) eqn:R; intro H; [exists 0, y; auto|].
  destruct (IH H) as (t & th & E & Q). exists (S t), th. auto.
Qed.
Definition able (st : cstate) (t : tid) : Prop := forall b, exists st1, cstep st t b = Next st1.
Lemma reader_able calls s st t th : cruns (cstart calls) s st -> nth_error (threads st) t = Some th -> isReader (at_ th) = true \/ isCrit (at_ th) = true -> able st t.
Proof.
  intros R E X b. pose proof (no_crash_lem calls s st t b R) as NC. unfold cstep in *. rewrite E in *. destruct (at_ th) as [|q|q|q d|q [i|]|q i|q i|q i|q i|q i|q i]; cbn in X; try (destruct X; discriminate); eauto.
  - destruct (readers (clock st)); [congruence|eauto].
  - destruct (look st q); eauto.
  - destruct (cmap st (fst q)); eauto.
  - destruct (cmap st (fst q)); [eauto|congruence].
  - destruct (wstate (clock st)); [congruence|congruence|eauto].
Qed.
Lemma progress_lem calls s st : cruns (cstart calls) s st -> finished st \/ exists t, able st t.
Proof.
  intro R. destruct (inv_runs _ _ _ _ (inv_start _ calls) (runs_by _ _ _ R)) as (I & _).
  destruct (wstate (clock st)) as [|t|t] eqn:W.
  - assert (A : forall l k, (forall t th, nth_error l t = Some th -> nth_error (threads st) (k + t) = Some th) -> (forall th, In th l -> todo th = [] /\ at_ th = Outside) \/ exists t, able st t).
    { induction l as [|y l IH]; intros k Sub; [left; intros th []|]. pose proof (Sub 0 y eq_refl) as E. rewrite Nat.add_0_r in E.
      destruct (IH (S k)) as [F|F]; [intros t th H; replace (S k + t) with (k + S t) by lia; apply Sub; exact H| |auto].
      destruct (isReader (at_ y) || isCrit (at_ y)) eqn:Rd; [right; exists k; apply orb_true_iff in Rd; eapply reader_able; eassumption|]. apply orb_false_iff in Rd as [Rd Cd].
      pose proof (i_wait _ st I k y E) as Iw. rewrite W in Iw.
      destruct (at_ y) as [|q|q|q d|q [i|]|q i|q i|q i|q i|q i|q i] eqn:Ay; try discriminate.
      - destruct (todo y) as [|q r] eqn:Td; [left; intros th [<-|H]; auto|]. right. exists k. intro b. unfold cstep. rewrite E, Ay, Td. eauto.
      - right. exists k. intro b. unfold cstep. rewrite E, Ay, W. eauto.
      - right. exists k. intro b. unfold cstep. rewrite E, Ay. eauto.
      - right. exists k. intro b. unfold cstep. rewrite E, Ay. destruct b; eauto.
      - right. exists k. intro b. unfold cstep. rewrite E, Ay, W. eauto.
      - cbn in Iw. destruct Iw as [Iw _]. specialize (Iw eq_refl). discriminate. }
    destruct (A (threads st) 0 (fun t th H => H)) as [F|F]; auto.
  - right. pose proof (i_range _ st I) as Rg. rewrite W in Rg. destruct (nth_error (threads st) t) as [th|] eqn:E; [|apply nth_error_None in E; lia].
    pose proof (proj2 (i_wait _ st I t th E) W) as Wt. destruct (readers (clock st)) as [|n] eqn:Rd.
    + exists t. intro b. unfold cstep. rewrite E. destruct (at_ th); try discriminate. rewrite Rd. eauto.
    + rewrite (i_readers _ st I) in Rd. destruct (count_ex (threads st)) as (t' & th' & E' & X); [congruence|]. exists t'. eapply reader_able; eauto.
  - right. pose proof (i_range _ st I) as Rg. rewrite W in Rg. destruct (nth_error (threads st) t) as [th|] eqn:E; [|apply nth_error_None in E; lia].
    pose proof (proj2 (i_crit _ st I t th E) W) as Wt. exists t. eapply reader_able; eauto.
Qed.

Definition left_ (p : pc) : nat :=
  match p with Outside => 0 | Started _ => 10 | Reading _ => 9 | Read _ _ => 8 | Unlocked _ _ => 7 | Built _ _ => 6 | Waiting _ _ => 5 | Checking _ _ => 4 | Making _ _ => 3 | Storing _ _ => 2 | Leaving _ _ => 1 end.
Definition work (th : thread) : nat := 11 * length (todo th) + left_ (at_ th).
Definition total (l : list thread) : nat := list_sum (map work l).
Lemma total_replace l : forall t x th, nth_error l t = Some th -> total (replace l t x) + work th = total l + work x.
Proof.
  unfold total. induction l as [|y l IH]; intros [|t] x th H; cbn in H; try discriminate.
  - injection H as ->. cbn [replace map list_sum fold_right]. fold (list_sum (map work l)). lia.
  - specialize (IH t x th H). cbn [replace map list_sum fold_right]. fold (list_sum (map work l)) (list_sum (map work (replace l t x))). lia.
Qed.
Lemma step_threads st t b st1 : cstep st t b = Next st1 -> exists th x, nth_error (threads st) t = Some th /\ threads st1 = replace (threads st) t x /\ work x < work th.
Proof.
  unfold cstep. destruct (nth_error (threads st) t) as [th|] eqn:E; [|discriminate]. intro H. exists th. unfold work.
  destruct (at_ th) as [|q|q|q d|q [i|]|q i|q i|q i|q i|q i|q i] eqn:A; cbn [left_].
  - destruct (todo th) as [|q r] eqn:Td; [discriminate|]. injection H as <-. eexists. split; [reflexivity|]. split; [reflexivity|]. cbn. lia.
  - destruct (wstate (clock st)); try discriminate. injection H as <-. eexists. split; [reflexivity|]. split; [reflexivity|]. cbn. lia.
  - injection H as <-. eexists. split; [reflexivity|]. split; [reflexivity|]. cbn. lia.
  - destruct (readers (clock st)); try discriminate. injection H as <-. eexists. split; [reflexivity|]. split; [reflexivity|]. cbn. lia.
  - injection H as <-. eexists. split; [reflexivity|]. split; [reflexivity|]. cbn. lia.
  - destruct b; injection H as <-; (eexists; split; [reflexivity|]; split; [reflexivity|]; cbn; lia).
  - destruct (wstate (clock st)); try discriminate. injection H as <-. eexists. split; [reflexivity|]. split; [reflexivity|]. cbn. lia.
  - destruct (readers (clock st)); try discriminate. injection H as <-. eexists. split; [reflexivity|]. split; [reflexivity|]. cbn. lia.
  - destruct (look st q); injection H as <-; (eexists; split; [reflexivity|]; split; [reflexivity|]; cbn; lia).
  - destruct (cmap st (fst q)); injection H as <-; (eexists; split; [reflexivity|]; split; [destruct q as [[] ty]; reflexivity|]; cbn; lia).
  - destruct (cmap st (fst q)); [|discriminate]. injection H as <-. eexists. split; [reflexivity|]. split; [destruct q as [[] ty]; reflexivity|]. cbn. lia.
  - destruct (wstate (clock st)); try discriminate. injection H as <-. eexists. split; [reflexivity|]. split; [reflexivity|]. cbn. lia.
Qed.
Lemma bounded st s st' : cruns st s st' -> length s + total (threads st') <= total (threads st).
Proof.
  induction 1 as [|st t b st1 s st2 H _ IH]; [cbn; lia|]. apply step_threads in H as (th & x & E & T & W). pose proof (total_replace _ _ x _ E) as Q. rewrite <- T in Q. cbn [length]. lia.
Qed.
Lemma bounded_lem calls s st : cruns (cstart calls) s st -> length s <= 11 * length (concat calls).
Proof.
  intro R. apply bounded in R. assert (Q : total (threads (cstart calls)) = 11 * length (concat calls)); [|lia]. clear. unfold total. cbn [cstart threads].
  induction calls as [|c calls IH]; [reflexivity|]. cbn [map list_sum fold_right concat]. fold (list_sum (map work (map (fun c : list request => mkT c Outside) calls))). rewrite IH, app_length. unfold work. cbn [todo at_ left_]. lia.
Qed.

(* every call is answered *)
Definition current (p : pc) : list request :=
  match p with Outside => [] | Started q | Reading q | Read q _ | Unlocked q _ | Built q _ | Waiting q _ | Checking q _ | Making q _ | Storing q _ | Leaving q _ => [q] end.
Definition pending (th : thread) : list request := current (at_ th) ++ todo th.
Definition calls_in (st : cstate) : list request := map fst (log st) ++ concat (map pending (threads st)).
Lemma pending_replace l : forall t x th, nth_error l t = Some th -> forall a, Permutation (pending th) (a ++ pending x) -> Permutation (concat (map pending l)) (a ++ concat (map pending (replace l t x))).
Proof.
  induction l as [|y l IH]; intros [|t] x th H a Pm; cbn in H; try discriminate.
  - injection H as ->. cbn [replace map concat]. rewrite app_assoc. apply Permutation_app_tail. exact Pm.
  - cbn [replace map concat]. rewrite (IH t x th H a Pm). rewrite app_assoc, (Permutation_app_comm (pending y) a), <- app_assoc. reflexivity.
Qed.
Lemma calls_step st t b st1 : cstep st t b = Next st1 -> Permutation (calls_in st) (calls_in st1).
Proof.
  unfold cstep. destruct (nth_error (threads st) t) as [th|] eqn:E; [|discriminate]. intro H. unfold calls_in.
  assert (S0 : forall x, pending x = pending th -> Permutation (map fst (log st) ++ concat (map pending (threads st))) (map fst (log st) ++ concat (map pending (replace (threads st) t x)))).
  { intros x Q. apply Permutation_app_head. apply (pending_replace _ _ _ _ E []). rewrite Q. reflexivity. }
  assert (S1 : forall x q o, pending th = q :: pending x -> Permutation (map fst (log st) ++ concat (map pending (threads st))) (map fst (log st ++ [(q, o)]) ++ concat (map pending (replace (threads st) t x)))).
  { intros x q o Q. rewrite map_app. cbn [map fst]. rewrite <- app_assoc. apply Permutation_app_head. apply (pending_replace _ _ _ _ E [q]). rewrite Q. reflexivity. }
  unfold pending in S0, S1.
  destruct (at_ th) as [|q|q|q d|q [i|]|q i|q i|q i|q i|q i|q i] eqn:A; cbn [current app] in S0, S1.
  - destruct (todo th) as [|q r] eqn:Td; [discriminate|]. injection H as <-. apply S0. reflexivity.
  - destruct (wstate (clock st)); try discriminate. injection H as <-. apply S0. reflexivity.
  - injection H as <-. apply S0. reflexivity.
  - destruct (readers (clock st)); try discriminate. injection H as <-. apply S0. reflexivity.
  - injection H as <-. apply S1. reflexivity.
  - destruct b; injection H as <-; [apply S0|apply S1]; reflexivity.
  - destruct (wstate (clock st)); try discriminate. injection H as <-. apply S0. reflexivity.
  - destruct (readers (clock st)); try discriminate. injection H as <-. apply S0. reflexivity.
  - destruct (look st q); injection H as <-; apply S0; reflexivity.
  - destruct (cmap st (fst q)); injection H as <-; destruct q as [[] ty]; apply S0; reflexivity.
  - destruct (cmap st (fst q)); [|discriminate]. injection H as <-. destruct q as [[] ty]; apply S0; reflexivity.
  - destruct (wstate (clock st)); try discriminate. injection H as <-. apply S1. reflexivity.
Qed.
Lemma calls_runs st s st' : cruns st s st' -> Permutation (calls_in st) (calls_in st').
Proof. induction 1 as [|st t b st1 s st2 H _ IH]; [reflexivity|]. rewrite (calls_step _ _ _ _ H). exact IH. Qed.
Lemma answered_lem calls s st : cruns (cstart calls) s st -> (forall t b st1, cstep st t b <> Next st1) -> finished st /\ Permutation (map fst (log st)) (concat calls).
Proof.
  intros R N. assert (F : finished st). { destruct (progress_lem calls s st R) as [F|(t & A)]; [exact F|]. destruct (A RErr) as (st1 & H). destruct (N t RErr st1 H). }
  split; [exact F|]. apply calls_runs in R. unfold calls_in in R. cbn [cstart log threads map app] in R.
  replace (concat (map pending (threads st))) with (@nil request) in R.
  - rewrite app_nil_r in R. symmetry. rewrite <- R. rewrite map_map. cbn. unfold pending. cbn. rewrite map_id. reflexivity.
  - unfold finished in F. revert F. generalize (threads st). intros l F. induction l as [|y l IH]; [reflexivity|]. cbn [map concat]. destruct (F y (or_introl eq_refl)) as [A B].
    rewrite <- IH by (intros th H; apply F; right; exact H). unfold pending. rewrite A, B. reflexivity.
Qed.
Lemma C47_example_lem : exists st, cruns (cstart [[(KDec, 3)]; [(KDec, 3); (KEnc, 3)]])
   (map (fun t => (t, RGot (7 + t))) [0; 1; 0; 1; 0; 1; 0; 1; 0; 1; 0; 0; 0; 0; 0; 0; 1; 1; 1; 1]) st /\
  log st = [((KDec, 3), RGot 7); ((KDec, 3), RGot 7)].
Proof. eexists. split; [cbn [map Nat.add]; repeat (eapply cr_cons; [vm_compute; reflexivity|]); apply cr_nil|]. reflexivity. Qed.
