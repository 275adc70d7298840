(* Lemmas for C48. *)
From Coq Require Import Permutation.
From Verif Require Import Bytes Types JsonSpec Parser Doc DocSpec DocProofs Api OpProofs HistSpec HistProofs HistThms ParserThms DocDec Pool PoolSpec.

Lemma removeNth_perm {A} (l : list A) k x : nth_error l k = Some x -> Permutation l (x :: removeNth l k).
Proof.
  revert k. induction l as [|y l IH]; intros [|k] H; cbn in H; try discriminate; [injection H as ->; reflexivity|].
  cbn [removeNth]. rewrite perm_swap. constructor. apply IH. exact H.
Qed.
Lemma removeNth_in {A} (l : list A) k x : In x (removeNth l k) -> In x l.
Proof. revert k. induction l as [|y l IH]; intros [|k] H; cbn in *; auto. destruct H as [H|H]; auto. right. eapply IH, H. Qed.
Lemma pair_eqb_true a b : pair_eqb a b = true -> a = b.
Proof. destruct a, b. unfold pair_eqb. cbn. intro H. apply andb_true_iff in H as [H1 H2]. apply Nat.eqb_eq in H1, H2. congruence. Qed.
Lemma pair_eqb_refl a : pair_eqb a a = true.
Proof. unfold pair_eqb. rewrite !Nat.eqb_refl. reflexivity. Qed.
Lemma remove1_perm x l : In x l -> Permutation l (x :: remove1 x l).
Proof.
  induction l as [|y l IH]; intros H; [destruct H|]. cbn [remove1]. destruct (pair_eqb x y) eqn:E; [apply pair_eqb_true in E; subst; reflexivity|].
  destruct H as [H|H]; [subst; rewrite pair_eqb_refl in E; discriminate|]. rewrite perm_swap. constructor. apply IH, H.
Qed.

Lemma NoDup_front {A} (a b : list A) : NoDup (a ++ b) -> NoDup a.
Proof. induction a as [|x a IH]; intro H; [constructor|]. cbn [app] in H. inversion H as [|? ? N N']; subst. constructor; [|auto]. intro K. apply N, in_or_app. auto. Qed.

(* ---- worlds ---- *)

Lemma pstep_run st e st1 : pstep st e = Some (Ok st1) -> run (pworld st) (calls_of e) = Ok (pworld st1).
Proof.
  assert (R : forall w c w', step w c = Ok w' -> run w [c] = Ok w') by (intros w c w' H; cbn [run]; rewrite H; reflexivity).
  destruct e as [u [k|]|u c|u r|u r|k]; cbn [pstep calls_of]; intro H.
  - destruct (nth_error _ _); [|discriminate]. injection H as <-. reflexivity.
  - cbn in H. injection H as <-. reflexivity.
  - assert (exists w, step (pworld st) c = Ok w /\ pworld st1 = w) as (w & A & ->).
    { destruct c; cbn [step] in *; (match type of H with Some (bind ?x _) = _ => destruct x as [w| |] eqn:E | _ => idtac end); cbn in H; try discriminate; injection H as <-; eexists; split; reflexivity || eassumption. }
    apply R, A.
  - cbn [step] in H. destruct (Document_Reset (pworld st) r) as [w| |] eqn:E; cbn in H; try discriminate. injection H as <-. apply R. exact E.
  - injection H as <-. reflexivity.
  - destruct (nth_error _ _); [|discriminate]. injection H as <-. reflexivity.
Qed.
Lemma pruns_run st es st' : pruns st es st' -> run (pworld st) (calls es) = Ok (pworld st').
Proof.
  induction 1 as [st|st e st1 es st2 H _ IH]; [reflexivity|]. apply pstep_run in H. change (calls (e :: es)) with (calls_of e ++ calls es).
  assert (A : forall a b w w1, run w a = Ok w1 -> run w (a ++ b) = run w1 b).
  { intros a b. induction a as [|c a IHa]; intros w w1 R; cbn in *; [injection R as ->; reflexivity|]. destruct (step w c) as [w2| |]; cbn in *; try discriminate. apply IHa, R. }
  rewrite (A _ _ _ _ H). exact IH.
Qed.
Lemma druns_pruns st es st' : druns st es st' -> pruns st es st'.
Proof. induction 1; [constructor|econstructor; eassumption]. Qed.

Lemma absent_noop w n c : Node_get w n = None -> receiver c = Some n -> step w c = Ok w.
Proof.
  intros H R. destruct c; try discriminate; injection R as ->; cbn [step];
    unfold Node_Set, Node_Append, Node_Slice, Node_Replace, Node_Remove, Node_Strip, Node_Del, Node_SetNumberRaw,
      Node_SetStringRaw, Node_SetFalse, Node_SetTrue, Node_SetNull, setScalar; rewrite H; auto.
  destruct vs; auto.
Qed.
Lemma putNodes_other w r r' ns : r <> r' -> nth_error (putNodes w r ns) r' = nth_error w r'.
Proof. intro H. unfold putNodes. destruct (nth_error w r); [|reflexivity]. apply nth_error_replaceNth_other. auto. Qed.
Lemma step_frame w c w' r : step w c = Ok w' -> r < length w -> subject c <> Some r -> (forall n, receiver c = Some n -> ndoc n = Some r -> Node_get w n = None) ->
  nth_error w' r = nth_error w r.
Proof.
  intros H L S R. destruct (receiver c) as [n|] eqn:Rc.
  - destruct (option_map (Nat.eqb r) (ndoc n)) as [[]|] eqn:E.
    + destruct (ndoc n) as [x|] eqn:En; [|discriminate]. injection E as E. apply Nat.eqb_eq in E. subst x.
      rewrite (absent_noop w n c (R n eq_refl En) Rc) in H. injection H as <-. reflexivity.
    + destruct (ndoc n) as [x|] eqn:En; [|discriminate]. injection E as E. apply Nat.eqb_neq in E.
      destruct (is_strip c) as [(m & k & ->)|Hs].
      * injection Rc as ->. apply strip_step in H as [->|(r' & d' & nn & ns' & (E1 & _) & _ & _ & ->)]; [reflexivity|]. apply putNodes_other. congruence.
      * pose proof (step_effect _ _ _ _ Rc Hs H) as Ef. destruct Ef as [|r' d' add ns1 (E1 & _) _|r' d' nn add ns1 nn1 x1 (E1 & _) _ _ _ _ _ _]; [reflexivity| |]; apply putNodes_other; congruence.
    + assert (En : ndoc n = None) by (destruct (ndoc n); [discriminate|reflexivity]). 
      destruct (is_strip c) as [(m & k & ->)|Hs].
      * injection Rc as ->. apply strip_step in H as [->|(r' & d' & nn & ns' & (E1 & _) & _ & _ & ->)]; [reflexivity|]. congruence.
      * pose proof (step_effect _ _ _ _ Rc Hs H) as Ef. destruct Ef as [|r' d' add ns1 (E1 & _) _|r' d' nn add ns1 nn1 x1 (E1 & _) _ _ _ _ _ _]; [reflexivity| |]; congruence.
  - assert (NN : forall r' info raw w1 n1, newNode w r' info raw = Ok (w1, n1) -> r' <> r -> nth_error w1 r = nth_error w r).
    { intros r' info raw w1 n1 Q D. unfold newNode in Q. destruct (nth_error w r'); [|discriminate]. injection Q as <- _. apply putDoc_other. exact D. }
    destruct c as [|r0|r0 s|r0|r0|r0|r0 s|r0|r0|r0 s|?|?|?|?|?|?|?|?|?|?|?|?]; try discriminate Rc; cbn [step subject] in *.
    + injection H as <-. apply nth_error_app1. exact L.
    + unfold Document_Reset in H. destruct (nth_error w r0); [|discriminate]. injection H as <-. apply putDoc_other. intro K; apply S; rewrite K; reflexivity.
    + destruct (Document_Parse w r0 s) as [[w1 [[n1 tl] e]]| |] eqn:P; cbn in H; try discriminate. injection H as <-.
      unfold Document_Parse in P. destruct (nth_error w r0); [|discriminate]. destruct (parseNodes _ s) as [ns []]; try discriminate; injection P as <- _ _ _; apply putDoc_other; intro K; apply S; rewrite K; reflexivity.
    + destruct (Document_Null w r0) as [[w1 n1]| |] eqn:P; cbn in H; try discriminate. injection H as <-. eapply NN; [exact P|intro K; apply S; rewrite K; reflexivity].
    + destruct (Document_False w r0) as [[w1 n1]| |] eqn:P; cbn in H; try discriminate. injection H as <-. eapply NN; [exact P|intro K; apply S; rewrite K; reflexivity].
    + destruct (Document_True w r0) as [[w1 n1]| |] eqn:P; cbn in H; try discriminate. injection H as <-. eapply NN; [exact P|intro K; apply S; rewrite K; reflexivity].
    + destruct (Document_TextRaw w r0 s) as [[w1 n1]| |] eqn:P; cbn in H; try discriminate. injection H as <-. eapply NN; [exact P|intro K; apply S; rewrite K; reflexivity].
    + destruct (Document_Object w r0) as [[w1 n1]| |] eqn:P; cbn in H; try discriminate. injection H as <-. eapply NN; [exact P|intro K; apply S; rewrite K; reflexivity].
    + destruct (Document_Array w r0) as [[w1 n1]| |] eqn:P; cbn in H; try discriminate. injection H as <-. eapply NN; [exact P|intro K; apply S; rewrite K; reflexivity].
    + destruct (Document_NumberRaw w r0 s) as [[w1 n1]| |] eqn:P; cbn in H; try discriminate. injection H as <-. eapply NN; [exact P|intro K; apply S; rewrite K; reflexivity].
Qed.
Lemma step_grows w c w' : step w c = Ok w' -> length w <= length w'.
Proof.
  intro H. destruct (le_lt_dec (length w) (length w')) as [|Hlt]; auto. exfalso.
  destruct (nth_error w (length w')) as [d|] eqn:E; [|apply nth_error_None in E; lia].
  destruct (step_rev _ _ _ _ _ H E) as (d' & E' & _). assert (length w' < length w') by (apply nth_error_Some; congruence). lia.
Qed.

(* ---- the invariant ---- *)

Definition all (st : pstate) : list ref := map snd (owned st) ++ map snd (closing st) ++ pooled st.
Definition good (st : pstate) : Prop :=
  NoDup (all st) /\ (forall r, In r (all st) -> r < length (pworld st)) /\ (forall r, In r (map snd (closing st)) \/ In r (pooled st) -> blank (pworld st) r).

Lemma blank_get w r n : blank w r -> ndoc n = Some r -> Node_get w n = None.
Proof.
  intros (d & E & B) D. destruct (Node_get w n) as [x|] eqn:G; [|reflexivity]. exfalso. apply get_live in G as (r' & d' & (E1 & E2 & _) & G).
  rewrite D in E1. injection E1 as <-. rewrite E in E2. injection E2 as <-. rewrite B in G. apply getNode_lt in G. unfold lenN in G. cbn in G. lia.
Qed.

Lemma good_perm st st1 : good st -> Permutation (all st) (all st1) -> pworld st1 = pworld st ->
  (forall r, In r (map snd (closing st1)) \/ In r (pooled st1) -> In r (map snd (closing st)) \/ In r (pooled st)) -> good st1.
Proof.
  intros (N & B & K) P W S. split; [eapply Permutation_NoDup; eassumption|]. rewrite W. split.
  - intros r H. apply B. apply (Permutation_in _ (Permutation_sym P)), H.
  - intros r H. apply K, S, H.
Qed.
Lemma good_new st u : good st -> good (mkP (pworld st ++ [mkDoc [] 0]) (pooled st) ((u, length (pworld st)) :: owned st) (closing st)).
Proof.
  intros (N & B & K). split; [|split]; unfold all in *; cbn [pworld pooled owned closing map snd app].
  - constructor; [|exact N]. intro H. apply B in H. lia.
  - rewrite app_length. cbn [length]. intros r [<-|H]; [lia|]. apply B in H. lia.
  - intros r H. destruct (K r H) as (d & E & D). exists d. split; [|exact D]. rewrite nth_error_app1; [exact E|]. apply nth_error_Some. congruence.
Qed.
Lemma good_call st c w : good st -> (forall r, subject c = Some r -> exists u, In (u, r) (owned st)) -> step (pworld st) c = Ok w -> good (mkP w (pooled st) (owned st) (closing st)).
Proof.
  intros (N & B & K) M H. split; [exact N|]. unfold all in *. cbn [pworld pooled owned closing]. split.
  - intros r I. apply B in I. pose proof (step_grows _ _ _ H). lia.
  - intros r I. destruct (K r I) as (d & E & D). exists d. split; [|exact D]. rewrite <- E. apply (step_frame _ _ _ r H).
    + apply B. apply in_or_app. right. apply in_or_app. destruct I; auto.
    + intro S. destruct (M r S) as (u & O). apply (in_map snd) in O. cbn in O.
      assert (I2 : In r (map snd (closing st) ++ pooled st)) by (apply in_or_app; destruct I; auto).
      destruct (in_split _ _ O) as (a & b & Q). rewrite Q in N. rewrite <- app_assoc in N. cbn [app] in N. apply NoDup_remove_2 in N. apply N. apply in_or_app. right. apply in_or_app. right. exact I2.
    + intros n Rn Dn. apply (blank_get _ r); [exists d; auto|exact Dn].
Qed.
Lemma good_step st e st1 : good st -> may st e -> pstep st e = Some (Ok st1) -> good st1.
Proof.
  intros G M H. destruct e as [u [k|]|u c|u r|u r|k]; cbn [pstep may] in *.
  - destruct (nth_error (pooled st) k) as [r|] eqn:E; [|discriminate]. injection H as <-. pose proof (removeNth_perm _ _ _ E) as P. apply (good_perm st); auto; unfold all; cbn [pworld pooled owned closing map snd app].
    + rewrite P at 1. rewrite app_assoc. rewrite <- Permutation_middle. rewrite <- app_assoc. reflexivity.
    + intros r' [I|I]; [auto|right; eapply removeNth_in, I].
  - cbn in H. injection H as <-. apply good_new, G.
  - destruct c as [|r0|r0 s|r0|r0|r0|r0 s|r0|r0|r0 s|?|?|?|?|?|?|?|?|?|?|?|?].
    { cbn in H. injection H as <-. apply good_new, G. }
    all: match type of H with context [step _ ?c] => destruct (step (pworld st) c) as [w| |] eqn:E end; cbn in H; try discriminate; injection H as <-;
      refine (good_call st _ w G _ E); intros r Sr; exists u; apply M, Sr.
  - cbn [step] in H. destruct (Document_Reset (pworld st) r) as [w| |] eqn:E; cbn in H; try discriminate. injection H as <-.
    assert (G1 : good (mkP w (pooled st) (owned st) (closing st))). { apply (good_call st (CReset r)); [exact G| |exact E]. intros r' S. injection S as <-. exists u. exact M. }
    assert (Bl : blank w r). { unfold Document_Reset in E. destruct (nth_error (pworld st) r) as [d|] eqn:Ed; [|discriminate]. injection E as <-. exists (resetDoc d). split; [|reflexivity]. eapply putDoc_same, Ed. }
    destruct G1 as (N & B & K). unfold all in *. cbn [pworld pooled owned closing] in *. pose proof (Permutation_map snd (remove1_perm _ _ M)) as P. cbn [map snd] in P.
    split; [|split]; unfold all; cbn [pworld pooled owned closing map snd].
    + eapply Permutation_NoDup; [|exact N]. rewrite P. cbn [app]. rewrite <- Permutation_middle. reflexivity.
    + intros r' I. apply B. eapply Permutation_in; [|exact I]. rewrite P. cbn [app]. rewrite <- Permutation_middle. reflexivity.
    + intros r' [[<-|I]|I]; auto.
  - injection H as <-. pose proof (Permutation_map snd (remove1_perm _ _ M)) as P. cbn [map snd] in P. apply (good_perm st); auto; unfold all; cbn [pworld pooled owned closing].
    + rewrite P. cbn [app]. rewrite (Permutation_middle (map snd (remove1 (u, r) (closing st)))). reflexivity.
    + intros r' [I|[<-|I]]; auto.
      * left. eapply Permutation_in; [apply Permutation_sym, P|]. right. exact I.
      * left. eapply Permutation_in; [apply Permutation_sym, P|]. left. reflexivity.
  - destruct (nth_error (pooled st) k) as [r|] eqn:E; [|discriminate]. injection H as <-. pose proof (removeNth_perm _ _ _ E) as P. destruct G as (N & B & K).
    assert (P2 : Permutation (all st) (r :: map snd (owned st) ++ map snd (closing st) ++ removeNth (pooled st) k)). { unfold all. rewrite (Permutation_app_head (map snd (owned st)) (Permutation_app_head (map snd (closing st)) P)). rewrite app_assoc, <- Permutation_middle, <- app_assoc. reflexivity. }
    split; [|split]; unfold all; cbn [pworld pooled owned closing].
    + apply (Permutation_NoDup P2) in N. inversion N; assumption.
    + intros r' I. apply B. apply (Permutation_in _ (Permutation_sym P2)). right. exact I.
    + intros r' [I|I]; apply K; [auto|right; eapply removeNth_in, I].
Qed.
Lemma good_runs st es st' : good st -> druns st es st' -> good st'.
Proof. intros G R. revert G. induction R as [|st e st1 es st2 M H _ IH]; intro G; [exact G|]. apply IH. eapply good_step; eassumption. Qed.
Lemma good_start : good pstart.
Proof. split; [constructor|]. split; [intros r []|]. intros r [[]|[]]. Qed.

Lemma exclusive_lem es st : druns pstart es st -> exclusive st /\ forall r, In r (pooled st) -> blank (pworld st) r.
Proof. intro R. destruct (good_runs _ _ _ good_start R) as (N & _ & K). split; [exact N|]. intros r H. apply K. auto. Qed.

(* what Get returns *)
Lemma get_lem es st u k st1 : druns pstart es st -> pstep st (PGet u k) = Some (Ok st1) ->
  exists r, owned st1 = (u, r) :: owned st /\ blank (pworld st1) r /\ (forall u', ~ In (u', r) (owned st)) /\ (forall u', ~ In (u', r) (closing st1)) /\ ~ In r (pooled st1).
Proof.
  intros R H. pose proof (good_runs _ _ _ good_start R) as G. assert (G1 : good st1) by (apply (good_step st (PGet u k)); [exact G|exact I|exact H]).
  assert (exists r, owned st1 = (u, r) :: owned st /\ blank (pworld st1) r) as (r & O & B).
  { destruct k as [k|]; cbn in H.
    - destruct (nth_error (pooled st) k) as [r|] eqn:E; [|discriminate]. injection H as <-. exists r. split; [reflexivity|]. apply G. right. eapply nth_error_In, E.
    - injection H as <-. eexists. split; [reflexivity|]. exists (mkDoc [] 0). split; [|reflexivity]. cbn [pworld]. rewrite nth_error_app2, Nat.sub_diag by lia. reflexivity. }
  exists r. split; [exact O|]. split; [exact B|]. destruct G1 as (N & _). unfold all in N. rewrite O in N. cbn [map snd app] in N. inversion N as [|? ? Nr _]; subst.
  split; [|split].
  - intros u' J. apply Nr. apply in_or_app. left. apply (in_map snd) in J. exact J.
  - intros u' J. apply Nr. apply in_or_app. right. apply in_or_app. left. apply (in_map snd) in J. exact J.
  - intro J. apply Nr. apply in_or_app. right. apply in_or_app. right. exact J.
Qed.

(* nodes of an earlier use *)
Lemma resets_app r a b : resets r (a ++ b) = (resets r a + resets r b)%N.
Proof. induction a as [|c a IH]; [reflexivity|]. cbn [app]. rewrite !resets_cons, IH. lia. Qed.
Lemma stale_lem st es st' n r d u : pruns st es st' -> nth_error (pworld st) r = Some d -> ndoc n = Some r -> nrev n = drev d -> (drev d < two64)%N ->
  In (PReset u r) es -> (resets r (calls es) < two64)%N -> inert (pworld st') n.
Proof.
  intros R E D V L I Q. eapply (C11_stale_lem (pworld st) (pworld st') (calls es) n r d); auto; [apply pruns_run, R|].
  clear - I. induction es as [|e es IH]; [destruct I|]. change (calls (e :: es)) with (calls_of e ++ calls es). rewrite resets_app. destruct I as [->|I]; [|specialize (IH I); lia].
  cbn [calls_of resets]. rewrite Nat.eqb_refl. lia.
Qed.

(* other users *)
Lemma isolated_lem st es st' u r : good st -> In (u, r) (owned st) -> druns st es st' -> Forall (fun e => ~ by_user e u) es -> no_node r st es ->
  In (u, r) (owned st') /\ nth_error (pworld st') r = nth_error (pworld st) r.
Proof.
  intros G O R. revert G O. induction R as [st|st e st1 es st2 M H R IH]; intros G O F NN; [auto|]. inversion F as [|? ? Fe F']; subst. destruct NN as [NN1 NN2]. specialize (NN2 _ H).
  pose proof (good_step _ _ _ G M H) as G1. destruct G as (N & B & K).
  assert (L : r < length (pworld st)). { apply B. apply in_or_app. left. apply (in_map snd) in O. exact O. }
  assert (Only : forall u', In (u', r) (owned st) -> u' = u).
  { intros u' O'. unfold all in N. apply NoDup_front in N. clear - N O O'. induction (owned st) as [|[x y] l IHl]; [destruct O|]. cbn [map snd] in N. inversion N as [|? ? Nx Nl]; subst.
    destruct O as [O|O], O' as [O'|O'].
    - congruence.
    - injection O as <- <-. destruct Nx. apply (in_map snd) in O'. exact O'.
    - injection O' as <- <-. destruct Nx. apply (in_map snd) in O. exact O.
    - auto. }
  assert (S : In (u, r) (owned st1) /\ nth_error (pworld st1) r = nth_error (pworld st) r).
  { destruct e as [u' [k|]|u' c|u' r'|u' r'|k]; cbn [pstep may by_user] in *.
    - destruct (nth_error (pooled st) k); [|discriminate]. injection H as <-. split; [right; exact O|reflexivity].
    - cbn in H. injection H as <-. split; [right; exact O|]. cbn [pworld]. apply nth_error_app1, L.
    - assert (exists w, step (pworld st) c = Ok w /\ pworld st1 = w /\ In (u, r) (owned st1)) as (w & A & -> & O1).
      { destruct c; cbn [step] in *; (match type of H with Some (bind ?x _) = _ => destruct x as [w| |] eqn:E | _ => idtac end); cbn in H; try discriminate; injection H as <-; eexists; (split; [reflexivity || eassumption|]); (split; [reflexivity|]); cbn [owned]; solve [exact O|right; exact O]. }
      split; [exact O1|]. apply (step_frame _ _ _ r A L).
      + intro S. apply M in S. apply Only in S. congruence.
      + intros n Rn Dn. apply inert_get. apply (NN1 n Rn Dn).
    - cbn [step] in H. destruct (Document_Reset (pworld st) r') as [w| |] eqn:E; cbn in H; try discriminate. injection H as <-. cbn [pworld owned]. split.
      + pose proof (remove1_perm _ _ M) as P. apply (Permutation_in _ P) in O. destruct O as [O|O]; [injection O as -> ->; contradiction|exact O].
      + apply (step_frame (pworld st) (CReset r') w r E L); [|intros n Rn; discriminate]. cbn [subject]. intro S. injection S as ->. apply Only in M. congruence.
    - injection H as <-. split; [exact O|reflexivity].
    - destruct (nth_error (pooled st) k); [|discriminate]. injection H as <-. split; [exact O|reflexivity]. }
  destruct S as (O1 & E1). destruct (IH G1 O1 F' NN2) as (O2 & E2). split; [exact O2|congruence].
Qed.

(* ---- what goes wrong ---- *)

Definition twice : list event := [PGet 0 None; PReset 0 0; PPut 0 0; PReset 0 0; PPut 0 0; PGet 1 (Some O); PGet 2 (Some O)].
Lemma twice_lem : exists es st u1 u2 r, pruns pstart es st /\ u1 <> u2 /\ In (u1, r) (owned st) /\ In (u2, r) (owned st).
Proof.
  exists twice. eexists. exists 1, 2, 0. split.
  - unfold twice. repeat (eapply pr_cons; [vm_compute; reflexivity|]). apply pr_nil.
  - split; [discriminate|]. cbn. auto.
Qed.

Definition alone (ns : list node) (rv : N) : pstate := mkP [mkDoc ns rv] [] [(0, 0)] [].
Lemma cycle k : forall rv, (rv < two64)%N -> exists es, druns (alone [] rv) es (alone [] ((rv + N.of_nat k) mod two64)%N) /\ resets 0 (calls es) = N.of_nat k.
Proof.
  induction k as [|k IH]; intros rv L.
  - exists []. rewrite N.add_0_r, N.mod_small by exact L. split; [constructor|reflexivity].
  - destruct (IH ((rv + 1) mod two64)%N) as (es & R & C); [apply N.mod_lt; discriminate|].
    exists (PReset 0 0 :: PPut 0 0 :: PGet 0 (Some O) :: es). split; [|change (resets 0 (calls (PReset 0 0 :: PPut 0 0 :: PGet 0 (Some O) :: es))) with (1 + resets O (calls es))%N; rewrite C; lia].
    eapply dr_cons; [left; reflexivity|reflexivity|]. eapply dr_cons; [left; reflexivity|reflexivity|]. eapply dr_cons; [exact I|reflexivity|].
    replace ((rv + N.of_nat (S k)) mod two64)%N with (((rv + 1) mod two64 + N.of_nat k) mod two64)%N; [exact R|].
    rewrite N.add_mod_idemp_l by discriminate. f_equal. lia.
Qed.
Lemma wrap_lem : exists es1 st1 es2 st2 n u r, druns pstart es1 st1 /\ ndoc n = Some r /\ tree_of (pworld st1) n JNull /\ druns st1 es2 st2 /\ In (PReset u r) es2 /\
  resets r (calls es2) = two64 /\ ~ inert (pworld st2) n.
Proof.
  destruct (cycle (N.to_nat (two64 - 1)) 1 ltac:(reflexivity)) as (es & R & C).
  assert (Z : ((1 + N.of_nat (N.to_nat (two64 - 1))) mod two64 = 0)%N) by (rewrite N2Nat.id; reflexivity). rewrite Z in R. clear Z.
  exists [PGet 0 None; PCall 0 (CNull 0)]. eexists. exists (PReset 0 0 :: PPut 0 0 :: PGet 0 (Some O) :: es). exists (alone [] 0). exists (mkN 0 0 (Some 0)), 0, 0.
  split; [eapply dr_cons; [exact I|reflexivity|]; eapply dr_cons; [intros r E; injection E as <-; left; reflexivity|reflexivity|]; apply dr_nil|].
  split; [reflexivity|]. split; [apply treeN_sound; vm_compute; reflexivity|].
  split; [eapply dr_cons; [left; reflexivity|reflexivity|]; eapply dr_cons; [left; reflexivity|reflexivity|]; eapply dr_cons; [exact I|reflexivity|]; exact R|].
  split; [left; reflexivity|]. split; [|intro H; apply (H (mkDoc [] 0)); reflexivity].
  change (resets 0 (calls (PReset 0 0 :: PPut 0 0 :: PGet 0 (Some O) :: es))) with (1 + resets O (calls es))%N. rewrite C, N2Nat.id. reflexivity.
Qed.
Lemma isolated_start es0 st es st' u r : druns pstart es0 st -> In (u, r) (owned st) -> druns st es st' -> Forall (fun e => ~ by_user e u) es -> no_node r st es ->
  In (u, r) (owned st') /\ nth_error (pworld st') r = nth_error (pworld st) r.
Proof. intro R. apply isolated_lem, (good_runs _ _ _ good_start R). Qed.
Lemma C48_example_lem : exists st st1, druns pstart [PGet 0 None; PGet 1 None; PCall 0 (CParse 0 (str "[1,2]")); PReset 0 0; PCall 1 (CNull 1); PPut 0 0] st /\
  pstep st (PGet 2 (Some O)) = Some (Ok st1) /\ owned st1 = [(2, 0); (1, 1)] /\ pworld st1 = [mkDoc [] 1; mkDoc [mkNode (N.lor vNull infRoot) (str "null") []] 0].
Proof.
  eexists. eexists. split.
  - eapply dr_cons; [exact I|vm_compute; reflexivity|]. eapply dr_cons; [exact I|vm_compute; reflexivity|].
    eapply dr_cons; [intros r E; injection E as <-; cbn; auto|vm_compute; reflexivity|]. eapply dr_cons; [cbn; auto|vm_compute; reflexivity|].
    eapply dr_cons; [intros r E; injection E as <-; cbn; auto|vm_compute; reflexivity|]. eapply dr_cons; [cbn; auto|vm_compute; reflexivity|]. apply dr_nil.
  - split; [vm_compute; reflexivity|]. split; reflexivity.
Qed.
