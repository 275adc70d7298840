(* Building codecs: what the objects in the heap are for, that building returns, and when it fails (C54). *)
From Verif Require Import Bytes Types JsonSpec Parser Doc DocSpec DocProofs Float Num Options Codec CodecSpec CodecMerge CodecBase.
Local Open Scope nat_scope.

(* object o can be used for the item with the hints *)
Definition serves (E : env) (G : list cobj) (o : nat) (it : item) (h : N) : Prop :=
  match nth_error G o with
  | Some (CMethod i) => i = it
  | Some (CKind i h' _) => i = it /\ (h' = h \/ exists k e, kindOf E (itype it) = Some (KMap k e))
  | Some (CStruct t _) => t = itype it /\ (h = 0%N \/ exists T, typeOf E t = Some T /\ handled it (tmeth T) = false)
  | None => False
  end.
Definition sound_obj (E : env) (O : opts) (G : list cobj) (c : cobj) : Prop :=
  match c with
  | CMethod it => exists T, typeOf E (itype it) = Some T /\ handled it (tmeth T) = true
  | CKind it h p => exists T, typeOf E (itype it) = Some T /\ handled it (tmeth T) = false /\
      match tkind T with
      | KPtr e | KSlice e | KArray _ e => serves E G p (isub it e) h
      | KMap k e => keyOk E (if idec it then isTextU else isText) k = true /\ serves E G p (isub it e) 0
      | KStruct _ | KOther | KIface true => False
      | _ => True
      end
  | CStruct t fs => exists T l, typeOf E t = Some T /\ tkind T = KStruct l /\ (unmarshals (tmeth T) = false \/ marshals (tmeth T) = false) /\
      structFields E O t = Ok (map fst fs) /\
      Forall (fun f => serves E G (fst (snd f)) (IDec (ctype (fst f))) 0 /\ serves E G (snd (snd f)) (IEnc (ctype (fst f))) (chints (fst f))) fs
  end.
Definition sound (E : env) (O : opts) (G : list cobj) : Prop := forall o c, nth_error G o = Some c -> sound_obj E O G c.

(* ---- heaps grow and objects keep what they are for ---- *)
Definition head (c : cobj) : cobj := match c with CKind it h _ => CKind it h 0 | CStruct t _ => CStruct t [] | _ => c end.
Definition grows (G G' : list cobj) : Prop := forall o c, nth_error G o = Some c -> exists c', nth_error G' o = Some c' /\ head c' = head c.
Lemma grows_refl G : grows G G.
Proof. intros o c H. eauto. Qed.
Lemma grows_trans A B C : grows A B -> grows B C -> grows A C.
Proof. intros H K o c N. destruct (H o c N) as (c' & N' & E1). destruct (K o c' N') as (d & Nd & E2). exists d. split; congruence. Qed.
Lemma grows_alloc G c : grows G (G ++ [c]).
Proof. intros o d N. exists d. split; auto. rewrite nth_error_app1; auto. apply nth_error_Some. congruence. Qed.
Lemma grows_set G o c : (exists d, nth_error G o = Some d /\ head d = head c) -> grows G (replaceNth G o c).
Proof.
  intros (d & Nd & Hd) q x N. destruct (Nat.eq_dec q o) as [->|Nq].
  - assert (x = d) by congruence. subst. exists c. split; [|congruence]. apply nth_error_replaceNth_same. apply nth_error_Some. congruence.
  - exists x. split; auto. rewrite nth_error_replaceNth_other; auto.
Qed.
Lemma serves_grows E G G' o it h : grows G G' -> serves E G o it h -> serves E G' o it h.
Proof.
  intros H. unfold serves. destruct (nth_error G o) as [c|] eqn:N; [|contradiction]. destruct (H o c N) as (c' & -> & Hc). destruct c, c'; cbn in Hc; try discriminate; try (injection Hc as ->); auto; try (intros; subst; auto; fail).
Qed.
Lemma fits_head dec c c' : head c' = head c -> fits dec c' = fits dec c.
Proof. destruct c, c'; cbn; try discriminate; congruence. Qed.
Lemma sound_grows E O G G' c : grows G G' -> sound_obj E O G c -> sound_obj E O G' c.
Proof.
  intros H. destruct c as [it|it h p|t fs]; cbn; auto.
  - intros (T & Ty & Hd & K). exists T. repeat split; auto. destruct (tkind T) as [| | | | | |[]| | | | | |]; auto; try (eapply serves_grows; eassumption). destruct K; split; auto. eapply serves_grows; eassumption.
  - intros (T & l & Ty & K & M & Sf & F). exists T, l. repeat split; auto. eapply Forall_impl; [|exact F]. cbn. intros f [A B]. split; eapply serves_grows; eassumption.
Qed.

(* ---- the cache ---- *)
Lemma lookup_put st t h o u g : lookupKey (bcache (put st t h o)) u g = if (t =? u) && (h =? g)%N then Some o else lookupKey (bcache st) u g.
Proof. reflexivity. Qed.
Lemma key_eq (t u : tid) (h g : N) : (t =? u) && (h =? g)%N = true -> t = u /\ h = g.
Proof. intro H. apply andb_prop in H as [A B]. apply Nat.eqb_eq in A. apply N.eqb_eq in B. auto. Qed.
Lemma key_neq (t u : tid) (h g : N) : (t =? u) && (h =? g)%N = false -> (t, h) <> (u, g).
Proof. intros H K. injection K as -> ->. rewrite Nat.eqb_refl, N.eqb_refl in H. discriminate. Qed.
Definition mk_item (dec : bool) (t : tid) : item := if dec then IDec t else IEnc t.
Lemma mk_item_it it : mk_item (idec it) (itype it) = it.
Proof. destruct it; reflexivity. Qed.
Definition entries (E : env) (st : bstate) : Prop :=
  forall t h o, lookupKey (bcache st) t h = Some o -> exists c, nth_error (bheap st) o = Some c /\
    forall dec, fits dec c = true -> (dec = true -> h = 0%N) -> serves E (bheap st) o (mk_item dec t) h.
(* P: the objects under construction *)
Definition inv (E : env) (O : opts) (P : list nat) (st : bstate) : Prop :=
  (forall o c, nth_error (bheap st) o = Some c -> In o P \/ sound_obj E O (bheap st) c) /\ entries E st /\
  (forall o t fs, nth_error (bheap st) o = Some (CStruct t fs) -> isStruct E t = true).
Definition keeps (st st' : bstate) : Prop := grows (bheap st) (bheap st') /\ forall t o, cachedStruct st t = Some o -> cachedStruct st' t = Some o.
Lemma keeps_refl st : keeps st st.
Proof. split; [apply grows_refl|auto]. Qed.
Lemma keeps_trans a b c : keeps a b -> keeps b c -> keeps a c.
Proof. intros [A B] [C D]. split; [eapply grows_trans; eassumption|auto]. Qed.
Lemma serves_fits E G o it h c : nth_error G o = Some c -> serves E G o it h -> fits (idec it) c = true.
Proof. intros N S. unfold serves in S. rewrite N in S. destruct c as [i|i h' p|]; cbn; auto; [subst|destruct S as [-> _]]; apply Bool.eqb_reflx. Qed.
Lemma serves_struct0 E G o t u fs h it : nth_error G o = Some (CStruct u fs) -> serves E G o it h -> itype it = t -> forall dec, serves E G o (mk_item dec t) 0.
Proof. intros N S <- dec. unfold serves in *. rewrite N in *. destruct S as [-> _]. split; auto. destruct dec; reflexivity. Qed.
(* an entry for something that serves *)
Lemma entries_put E st it h o : entries E st -> serves E (bheap st) o it h -> (idec it = true -> h = 0%N) -> entries E (put st (itype it) h o).
Proof.
  intros En S Hd u g q L. rewrite lookup_put in L. destruct ((itype it =? u) && (h =? g)%N) eqn:K; [|exact (En _ _ _ L)]. apply key_eq in K as [<- <-]. injection L as <-.
  pose proof S as S'. unfold serves in S'. destruct (nth_error (bheap st) o) as [c|] eqn:N; [|contradiction]. exists c. split; [exact N|]. intros dec Fd Hh. cbn [bheap put].
  destruct (Bool.eqb (idec it) dec) eqn:Eb; [apply Bool.eqb_prop in Eb; subst dec; rewrite mk_item_it; exact S|].
  destruct c as [i|i h' p|t fs]; cbn in Fd.
  - subst i. congruence.
  - destruct S' as [-> _]. congruence.
  - destruct S' as [Et S']. unfold serves. rewrite N. split; [destruct dec; exact Et|].
    destruct dec; [left; auto|]. assert (idec it = true) by (destruct (idec it); [reflexivity|discriminate]). left. apply Hd. assumption.
Qed.
Lemma entries_grow E st G' : entries E st -> grows (bheap st) G' -> entries E (mkB G' (bcache st)).
Proof.
  intros En Gr t h o L. destruct (En t h o L) as (c & N & Hc). destruct (Gr o c N) as (c' & N' & Hh). exists c'. split; auto. intros dec F Hd. eapply serves_grows; [exact Gr|]. apply Hc; auto.
  rewrite <- F. symmetry. apply fits_head. exact Hh.
Qed.
Lemma cachedStruct_grow st G' t o : grows (bheap st) G' -> cachedStruct st t = Some o -> cachedStruct (mkB G' (bcache st)) t = Some o.
Proof.
  unfold cachedStruct. cbn [bcache bheap]. intros Gr C. destruct (lookupKey (bcache st) t 0) as [p|]; [|discriminate]. destruct (nth_error (bheap st) p) as [c|] eqn:N; [|discriminate].
  destruct (Gr p c N) as (c' & -> & Hh). destruct c, c'; try discriminate. exact C.
Qed.
Lemma cachedStruct_put st t h o u q : cachedStruct st u = Some q -> ((t, h) = (u, 0%N) -> exists fs, nth_error (bheap st) o = Some (CStruct u fs) /\ o = q) -> cachedStruct (put st t h o) u = Some q.
Proof.
  unfold cachedStruct. rewrite lookup_put. cbn [bheap put]. intros C H. destruct ((t =? u) && (h =? 0)%N) eqn:K; auto. apply key_eq in K as [-> ->]. destruct (H eq_refl) as (fs & N & ->). rewrite N. reflexivity.
Qed.
Lemma cachedStruct_at E st t q : entries E st -> cachedStruct st t = Some q -> exists fs, nth_error (bheap st) q = Some (CStruct t fs).
Proof.
  intros En C. unfold cachedStruct in C. destruct (lookupKey (bcache st) t 0) as [p|] eqn:L; [|discriminate]. destruct (En _ _ _ L) as (c & N & Hc). rewrite N in C. destruct c as [| |t' fs]; try discriminate. injection C as <-.
  exists fs. specialize (Hc true eq_refl (fun _ => eq_refl)). unfold serves in Hc. rewrite N in Hc. destruct Hc as [Et _]. cbn in Et. congruence.
Qed.
Lemma cachedStruct_cachedAs dec st t o : cachedStruct st t = Some o -> cachedAs dec st t 0 = Some o.
Proof. unfold cachedStruct, cachedAs. destruct (lookupKey (bcache st) t 0) as [p|]; [|discriminate]. destruct (nth_error (bheap st) p) as [[| |]|]; try discriminate. auto. Qed.

(* ---- what one call leaves behind ---- *)
Definition made (E : env) (O : opts) (P : list nat) (it : item) (h : N) (st : bstate) (o : nat) (st' : bstate) : Prop :=
  inv E O P st' /\ keeps st st' /\ serves E (bheap st') o it h.
Definition fresh (it : item) (st : bstate) (o : nat) (st' : bstate) : Prop := forall q, cachedStruct st' (itype it) = Some q -> q = o \/ cachedStruct st (itype it) = Some q.
Lemma inv_alloc E O P st c : inv E O P st -> (forall t fs, c = CStruct t fs -> isStruct E t = true) -> inv E O (length (bheap st) :: P) (alloc st c).
Proof.
  intros (A & B & C) Hs. split; [|split].
  - intros o d N. cbn [bheap alloc] in N. destruct (Nat.lt_ge_cases o (length (bheap st))) as [L|L].
    + rewrite nth_error_app1 in N by exact L. destruct (A o d N); [left; right; assumption|right]. eapply sound_grows; [apply grows_alloc|assumption].
    + left. left. assert (o < length (bheap st ++ [c])) by (apply nth_error_Some; cbn [bheap alloc] in N; congruence). rewrite app_length in H. cbn in H. lia.
  - apply (entries_grow E st); [exact B|apply grows_alloc].
  - intros o t fs N. cbn [bheap alloc] in N. destruct (Nat.lt_ge_cases o (length (bheap st))) as [L|L].
    + rewrite nth_error_app1 in N by exact L. eauto.
    + rewrite nth_error_app2 in N by exact L. destruct (o - length (bheap st)) as [|[|]]; cbn in N; try discriminate. injection N as ->. eauto.
Qed.
Lemma alloc_at st c : nth_error (bheap (alloc st c)) (length (bheap st)) = Some c.
Proof. cbn [bheap alloc]. rewrite nth_error_app2, Nat.sub_diag by lia. reflexivity. Qed.
Lemma keeps_alloc st c : keeps st (alloc st c).
Proof. split; [apply grows_alloc|]. intros t o C. apply (cachedStruct_grow st); [apply grows_alloc|exact C]. Qed.
Lemma cachedStruct_alloc E st c t q : entries E st -> cachedStruct (alloc st c) t = Some q -> cachedStruct st t = Some q.
Proof.
  intros En. unfold cachedStruct. cbn [bcache bheap alloc]. destruct (lookupKey (bcache st) t 0) as [p|] eqn:L; [|discriminate]. destruct (En _ _ _ L) as (d & N & _).
  rewrite nth_error_app1 by (apply nth_error_Some; congruence). auto.
Qed.
Lemma inv_set E O P st o c d : inv E O (o :: P) st -> nth_error (bheap st) o = Some d -> head d = head c -> sound_obj E O (bheap st) c -> inv E O P (setObj st o c).
Proof.
  intros (A & B & C) N Hd S. assert (Gr : grows (bheap st) (bheap (setObj st o c))) by (apply grows_set; eauto). split; [|split].
  - intros q x Nx. cbn [bheap setObj] in Nx. destruct (Nat.eq_dec o q) as [<-|Nq].
    + rewrite nth_error_replaceNth_same in Nx by (apply nth_error_Some; congruence). injection Nx as <-. right. eapply sound_grows; eassumption.
    + rewrite nth_error_replaceNth_other in Nx by exact Nq. destruct (A q x Nx) as [[->|I]|Sx]; [contradiction|auto|right; eapply sound_grows; eassumption].
  - apply (entries_grow E st); assumption.
  - intros q t fs Nx. cbn [bheap setObj] in Nx. destruct (Nat.eq_dec o q) as [<-|Nq].
    + rewrite nth_error_replaceNth_same in Nx by (apply nth_error_Some; congruence). injection Nx as ->. destruct d as [| |t' fs']; try discriminate. cbn in Hd. injection Hd as ->. eauto.
    + rewrite nth_error_replaceNth_other in Nx by exact Nq. eauto.
Qed.
Lemma keeps_set st o c d : nth_error (bheap st) o = Some d -> head d = head c -> keeps st (setObj st o c).
Proof. intros N H. assert (Gr : grows (bheap st) (bheap (setObj st o c))) by (apply grows_set; eauto). split; [exact Gr|]. intros t q. apply (cachedStruct_grow st). exact Gr. Qed.
Lemma inv_weak E O P Q st : incl P Q -> inv E O P st -> inv E O Q st.
Proof. intros I (A & B & C). split; [|split; assumption]. intros o c N. destruct (A o c N); auto. Qed.
Lemma inv_put E O P st it h o : inv E O P st -> serves E (bheap st) o it h -> (idec it = true -> h = 0%N) -> inv E O P (put st (itype it) h o).
Proof. intros (A & B & C) S H. split; [exact A|]. split; [apply entries_put; assumption|exact C]. Qed.

Definition sub_ok (E : env) (O : opts) (mk : makes) : Prop :=
  forall P it h st o st', inv E O P st -> (idec it = true -> h = 0%N) -> mk it h st = Ok (Some (o, st')) -> made E O P it h st o st'.
Lemma cached_ok E O (mk : makes) :
  (forall P it h st o st', inv E O P st -> (idec it = true -> h = 0%N) -> mk it h st = Ok (Some (o, st')) -> made E O P it h st o st' /\ fresh it st o st') ->
  sub_ok E O (cached mk).
Proof.
  intros H P it h st o st' I Hh C. unfold cached in C. destruct (cachedAs (idec it) st (itype it) h) as [q|] eqn:Ca.
  - injection C as <- <-. split; [exact I|]. split; [apply keeps_refl|]. unfold cachedAs in Ca. destruct (lookupKey (bcache st) (itype it) h) as [p|] eqn:L; [|discriminate].
    destruct I as (_ & En & _). destruct (En _ _ _ L) as (c & N & Hc). rewrite N in Ca. destruct (fits (idec it) c) eqn:F; [|discriminate]. injection Ca as <-. rewrite <- (mk_item_it it) at 1. apply Hc; auto.
  - destruct (mk it h st) as [[[p st1]|]| |] eqn:Em; try discriminate. cbn [bind] in C. injection C as <- <-. destruct (H P it h st p st1 I Hh Em) as ((I1 & K1 & S1) & F1). split; [apply inv_put; assumption|]. split; [|exact S1].
    destruct K1 as [G1 C1]. split; [exact G1|]. intros t q Cq. specialize (C1 _ _ Cq). apply cachedStruct_put; auto. intro K. injection K as Kt Kh. subst t. rewrite Kh in *.
    destruct (F1 q C1) as [->|Cs]; [|rewrite (cachedStruct_cachedAs (idec it) _ _ _ Cs) in Ca; discriminate]. destruct I1 as (_ & En & _). destruct (cachedStruct_at E _ _ _ En C1) as (fs & N). eauto.
Qed.
Lemma makeOne_made E O get it T h e P st o st' : sub_ok E O get -> inv E O P st -> (idec it = true -> h = 0%N) -> typeOf E (itype it) = Some T -> handled it (tmeth T) = false ->
  (forall l, tkind T <> KStruct l) ->
  (forall G p, serves E G p (isub it e) h -> match tkind T with
      | KPtr e | KSlice e | KArray _ e => serves E G p (isub it e) h
      | KMap k e => keyOk E (if idec it then isTextU else isText) k = true /\ serves E G p (isub it e) 0
      | KStruct _ | KOther | KIface true => False
      | _ => True
      end) ->
  makeOne get it h e st = Ok (Some (o, st')) -> made E O P it h st o st' /\ fresh it st o st'.
Proof.
  intros Sub I Hh Ty Hd Ns Kd M. unfold makeOne in M. set (c0 := CKind it h 0) in *. set (q := length (bheap st)) in *. set (st1 := put (alloc st c0) (itype it) h q) in *.
  assert (I0 : inv E O (q :: P) (alloc st c0)) by (apply inv_alloc; [exact I|discriminate]).
  assert (S0 : serves E (bheap (alloc st c0)) q it h) by (unfold serves; rewrite (alloc_at st c0 : nth_error _ q = _); cbn; auto).
  assert (I1 : inv E O (q :: P) st1) by (apply inv_put; assumption).
  assert (Nst : forall o' t fs, nth_error (bheap st1) o' = Some (CStruct t fs) -> t <> itype it).
  { intros o' t fs N ->. destruct I1 as (_ & _ & Sx). specialize (Sx _ _ _ N). unfold isStruct in Sx. rewrite Ty in Sx. destruct (tkind T) eqn:K; try discriminate. exact (Ns _ eq_refl). }
  assert (K1 : keeps st st1).
  { split; [apply grows_alloc|]. intros t x C. apply cachedStruct_put; [apply (proj2 (keeps_alloc st c0)); exact C|]. intro K. injection K as <- _. exfalso.
    destruct I as (_ & En & Sx). destruct (cachedStruct_at E _ _ _ En C) as (fs & N). specialize (Sx _ _ _ N). unfold isStruct in Sx. rewrite Ty in Sx. destruct (tkind T) eqn:K; try discriminate. exact (Ns _ eq_refl). }
  destruct (get (isub it e) h st1) as [[[p st2]|]| |] eqn:Eg; try discriminate. cbn [bind] in M. injection M as <- <-.
  destruct (Sub (q :: P) (isub it e) h st1 p st2 I1 ltac:(destruct it; exact Hh) Eg) as (I2 & K2 & S2).
  destruct (proj1 K2 q c0 (alloc_at st c0)) as (d & Nd & Hd2).
  assert (I3 : inv E O P (setObj st2 q (CKind it h p))).
  { eapply inv_set; [exact I2|exact Nd|exact Hd2|]. exists T. split; [exact Ty|]. split; [exact Hd|]. apply Kd. exact S2. }
  assert (K3 : keeps st2 (setObj st2 q (CKind it h p))) by (eapply keeps_set; [exact Nd|exact Hd2]).
  split; [split; [exact I3|split]|].
  - eapply keeps_trans; [exact K1|]. eapply keeps_trans; eassumption.
  - eapply serves_grows; [exact (proj1 K3)|]. eapply serves_grows; [exact (proj1 K2)|]. exact S0.
  - intros x C. exfalso. destruct I3 as (_ & En & Sx). destruct (cachedStruct_at E _ _ _ En C) as (fs & N). specialize (Sx _ _ _ N). unfold isStruct in Sx. rewrite Ty in Sx. destruct (tkind T) eqn:K; try discriminate. exact (Ns _ eq_refl).
Qed.
Lemma makeFields_made E O get P : sub_ok E O get -> forall cs st fs st', inv E O P st -> makeFields get cs st = Ok (Some (fs, st')) ->
  inv E O P st' /\ keeps st st' /\ map fst fs = cs /\
  Forall (fun f => serves E (bheap st') (fst (snd f)) (IDec (ctype (fst f))) 0 /\ serves E (bheap st') (snd (snd f)) (IEnc (ctype (fst f))) (chints (fst f))) fs.
Proof.
  intros Sub. induction cs as [|c cs IH]; intros st fs st' I M; cbn [makeFields] in M.
  - injection M as <- <-. split; [exact I|]. split; [apply keeps_refl|]. split; [reflexivity|constructor].
  - destruct (get (IDec (ctype c)) 0%N st) as [[[d st1]|]| |] eqn:Ed; try discriminate. cbn [bind] in M. destruct (get (IEnc (ctype c)) (chints c) st1) as [[[e st2]|]| |] eqn:Ee; try discriminate. cbn [bind] in M.
    destruct (makeFields get cs st2) as [[[fs0 st3]|]| |] eqn:Ef; try discriminate. cbn [bind] in M. injection M as <- <-.
    destruct (Sub P _ _ _ _ _ I (fun _ => eq_refl) Ed) as (I1 & K1 & S1). destruct (Sub P (IEnc (ctype c)) (chints c) st1 e st2 I1 ltac:(discriminate) Ee) as (I2 & K2 & S2). destruct (IH _ _ _ I2 Ef) as (I3 & K3 & Mp & F).
    split; [exact I3|]. split; [eapply keeps_trans; [exact K1|eapply keeps_trans; eassumption]|]. split; [cbn; congruence|]. constructor; [|exact F]. cbn [fst snd]. split.
    + eapply serves_grows; [exact (proj1 K3)|]. eapply serves_grows; [exact (proj1 K2)|exact S1].
    + eapply serves_grows; [exact (proj1 K3)|exact S2].
Qed.
Lemma leaf_made E O P it h st c : inv E O P st -> sound_obj E O (bheap (alloc st c)) c -> (forall t fs, c <> CStruct t fs) -> serves E (bheap (alloc st c)) (length (bheap st)) it h ->
  made E O P it h st (length (bheap st)) (alloc st c) /\ fresh it st (length (bheap st)) (alloc st c).
Proof.
  intros I Sc Nc S. split; [split; [|split]|].
  - destruct (inv_alloc E O P st c I ltac:(intros t fs ->; exfalso; eapply Nc; reflexivity)) as (A & B & C). split; [|split; assumption]. intros o d N. destruct (A o d N) as [[<-|Io]|So]; auto.
    rewrite alloc_at in N. injection N as <-. auto.
  - apply keeps_alloc.
  - exact S.
  - intros q C. right. eapply cachedStruct_alloc; [exact (proj1 (proj2 I))|exact C].
Qed.
Lemma make_made E O : forall fuel P it h st o st', inv E O P st -> (idec it = true -> h = 0%N) -> make fuel E O it h st = Ok (Some (o, st')) -> made E O P it h st o st' /\ fresh it st o st'.
Proof.
  induction fuel as [|k IH]; [discriminate|]. intros P it h st o st' I Hh M. cbn [make] in M. destruct (typeOf E (itype it)) as [T|] eqn:Ty; [|discriminate].
  pose proof (cached_ok E O (make k E O) IH) as Sub. destruct (handled it (tmeth T)) eqn:Hd.
  { injection M as <- <-. apply leaf_made; auto; [exists T; auto|discriminate|]. unfold serves. rewrite alloc_at. reflexivity. }
  assert (Leaf : match tkind T with KPtr _ | KSlice _ | KArray _ _ | KMap _ _ | KStruct _ | KOther | KIface true => False | _ => True end -> Some (o, st') = Some (length (bheap st), alloc st (CKind it h 0)) ->
    made E O P it h st o st' /\ fresh it st o st').
  { intros Kd Eq. injection Eq as -> ->. apply leaf_made; auto; [exists T; repeat split; auto; destruct (tkind T) as [| | | | | |[]| | | | | |]; tauto|discriminate|]. unfold serves. rewrite alloc_at. auto. }
  assert (Ns : forall l, tkind T = KStruct l -> isStruct E (itype it) = true) by (intros l K; unfold isStruct; rewrite Ty, K; reflexivity).
  destruct (tkind T) as [| | | | | |[]|e|e|n e|key e|fl|] eqn:K; try discriminate; try (apply Leaf; [exact Logic.I|congruence]).
  - eapply makeOne_made; try eassumption; rewrite K; [discriminate|auto].
  - eapply makeOne_made; try eassumption; rewrite K; [discriminate|auto].
  - eapply makeOne_made; try eassumption; rewrite K; [discriminate|auto].
  - destruct (keyOk E _ key) eqn:Ko; [|discriminate].
    destruct (makeOne_made E O _ it T 0 e P st o st' Sub I (fun _ => eq_refl) Ty Hd ltac:(rewrite K; discriminate) ltac:(rewrite K; auto) M) as ((A & B & S) & F). split; [|exact F]. split; [exact A|]. split; [exact B|].
    unfold serves in *. destruct (nth_error (bheap st') o) as [[i|i h' p|u fs]|] eqn:N; auto.
    + destruct S as [-> _]. split; auto. right. exists key, e. unfold kindOf. rewrite Ty. cbn. congruence.
    + exfalso. destruct S as [-> _]. destruct A as (_ & _ & Sx). specialize (Sx _ _ _ N). unfold isStruct in Sx. rewrite Ty, K in Sx. discriminate.
  - destruct (cachedStruct st (itype it)) as [q|] eqn:Cs.
    + injection M as <- <-. split; [split; [exact I|split; [apply keeps_refl|]]|intros q' C; auto]. destruct (cachedStruct_at E _ _ _ (proj1 (proj2 I)) Cs) as (fs & N). unfold serves. rewrite N. split; auto. right. exists T. auto.
    + destruct (structFields E O (itype it)) as [cs| |] eqn:Sf; try discriminate. cbn [bind] in M. set (q := length (bheap st)) in *. set (c0 := CStruct (itype it) []) in *. set (st1 := put (alloc st c0) (itype it) 0 q) in *.
      destruct (makeFields _ cs st1) as [[[fs st2]|]| |] eqn:Ef; try discriminate. cbn [bind] in M. injection M as <- <-.
      assert (I0 : inv E O (q :: P) (alloc st c0)) by (apply inv_alloc; [exact I|]; intros t fs0 Eq; injection Eq as <- _; eapply Ns; reflexivity).
      assert (S0 : forall h, serves E (bheap (alloc st c0)) q it h) by (intro g; unfold serves; rewrite (alloc_at st c0 : nth_error _ q = _); split; [reflexivity|right; exists T; auto]).
      assert (I1 : inv E O (q :: P) st1) by (apply inv_put; auto).
      assert (K1 : keeps st st1).
      { split; [apply grows_alloc|]. intros t x C. apply cachedStruct_put; [apply (proj2 (keeps_alloc st c0)); exact C|]. intro Kk. injection Kk as <-. congruence. }
      destruct (makeFields_made E O _ (q :: P) Sub cs st1 fs st2 I1 Ef) as (I2 & K2 & Mp & F).
      destruct (proj1 K2 q c0 (alloc_at st c0)) as (d & Nd & Hd2).
      assert (C1 : cachedStruct st1 (itype it) = Some q).
      { unfold cachedStruct, st1. rewrite lookup_put, Nat.eqb_refl, N.eqb_refl. cbn [andb bheap put]. rewrite (alloc_at st c0 : nth_error _ q = _). reflexivity. }
      assert (K3 : keeps st2 (setObj st2 q (CStruct (itype it) fs))) by (eapply keeps_set; [exact Nd|exact Hd2]).
      split; [split; [|split]|].
      * eapply inv_set; [exact I2|exact Nd|exact Hd2|]. exists T, fl. repeat split; auto; [|congruence]. unfold handled in Hd. destruct (idec it); auto.
      * eapply keeps_trans; [exact K1|]. eapply keeps_trans; eassumption.
      * eapply serves_grows; [exact (proj1 K3)|]. eapply serves_grows; [exact (proj1 K2)|]. apply S0.
      * intros x C. left. pose proof (proj2 K3 _ _ (proj2 K2 _ _ C1)). congruence.
Qed.
Lemma newCodec_sound E O it o G : newCodec E O it = Ok (Some (o, G)) -> sound E O G /\ serves E G o it 0.
Proof.
  unfold newCodec. destruct (make _ E O it 0 (mkB [] [])) as [[[p st]|]| |] eqn:M; try discriminate. cbn [bind]. intro H. injection H as <- <-.
  destruct (make_made E O _ [] it 0 (mkB [] []) p st ltac:(split; [|split]; [intros [|] c N; discriminate|intros t h q L; discriminate|intros [|] t fs N; discriminate]) (fun _ => eq_refl) M) as (((A & _) & _ & S) & _).
  split; auto. intros q c N. destruct (A q c N) as [[]|]; assumption.
Qed.

(* ---- a codec that was built uses nothing that lacks one ---- *)
Lemma by_kind_methods E it T : typeOf E (itype it) = Some T -> handled it (tmeth T) = false -> by_kind E it T.
Proof.
  destruct it; cbn; unfold handled, unmarshals, marshals, no_unmarshaler, no_marshaler; cbn [idec]; intros Ty H; (split; [exact Ty|]);
    match type of H with (?a || ?b || ?c)%bool = false => destruct a, b, c; try discriminate; auto end.
Qed.
Lemma by_kind_flag E it T : by_kind E it T -> typeOf E (itype it) = Some T /\ handled it (tmeth T) = false.
Proof. destruct it; cbn; unfold handled, unmarshals, marshals; cbn [idec]; intros (Ty & A & B & C); rewrite A, B, C; auto. Qed.
Lemma keyOk_false E m k : keyOk E m k = false <-> kindOf E k <> Some KString /\ forall K, typeOf E k = Some K -> m (tmeth K) = false.
Proof.
  unfold keyOk, kindOf. destruct (typeOf E k) as [K|]; cbn; [|split; [split; discriminate|auto]]. split.
  - intro H. apply orb_false_elim in H as [A B]. split; [intro C; injection C as C; rewrite C in B; discriminate|]. intros K' [= <-]. exact A.
  - intros [A B]. rewrite (B K eq_refl). destruct (tkind K); auto. exfalso. apply A. reflexivity.
Qed.
Lemma serves_cases E O G o it h : sound E O G -> serves E G o it h -> exists T, typeOf E (itype it) = Some T /\
  ((handled it (tmeth T) = true /\ nth_error G o = Some (CMethod it)) \/
   (exists l fs, tkind T = KStruct l /\ nth_error G o = Some (CStruct (itype it) fs) /\ (h = 0%N \/ handled it (tmeth T) = false) /\ sound_obj E O G (CStruct (itype it) fs)) \/
   (handled it (tmeth T) = false /\ (forall l, tkind T <> KStruct l) /\ exists h' p, (h' = h \/ exists k e, tkind T = KMap k e) /\ nth_error G o = Some (CKind it h' p) /\ sound_obj E O G (CKind it h' p))).
Proof.
  intros Sd S. unfold serves in S. destruct (nth_error G o) as [c|] eqn:N; [|contradiction]. pose proof (Sd o c N) as Sc. destruct c as [i|i h' p|t fs].
  - subst i. destruct Sc as (T & Ty & Hd). exists T. split; auto.
  - destruct S as [-> Hh]. pose proof Sc as (T & Ty & Hd & K). exists T. split; auto. right. right. split; auto. split; [intros l Kl; rewrite Kl in K; exact K|]. exists h', p. split; auto.
    destruct Hh as [|(k & e & Ke)]; auto. right. exists k, e. unfold kindOf in Ke. rewrite Ty in Ke. cbn in Ke. congruence.
  - destruct S as [-> Hh]. pose proof Sc as (T & l & Ty & K & M & Sf & F). exists T. split; auto. right. left. exists l, fs. split; auto. split; auto. split; [|exact Sc].
    destruct Hh as [|(T' & Ty' & Hd)]; auto. right. congruence.
Qed.
Lemma serves_uses E O G o it h x : sound E O G -> serves E G o it h -> uses E O it x -> exists o' h', serves E G o' x h'.
Proof.
  intros Sd S U. destruct (serves_cases E O G o it h Sd S) as (T & Ty & Cs). inversion U as [t T' e Bk Ie|t T' e Bk Ie|it' t T' fs cs c x' Hit Bk K Sf Ic Hx]; subst; apply by_kind_flag in Bk as [Ty' Hd]; rewrite Ty in Ty'; injection Ty' as <-.
  - destruct Cs as [[Hd' _]|[(l & fs & K & _)|(_ & _ & h' & p & _ & _ & Sc)]]; [congruence|rewrite K in Ie; destruct Ie|]. destruct Sc as (T' & Ty' & _ & Sk). rewrite Ty in Ty'. injection Ty' as <-.
    destruct (tkind T) as [| | | | | |[]| | | | | |]; cbn in Ie; try contradiction; destruct Ie as [<-|[]]; try (exists p, h'; exact Sk). exists p, 0%N. exact (proj2 Sk).
  - destruct Cs as [[Hd' _]|[(l & fs & K & _)|(_ & _ & h' & p & _ & _ & Sc)]]; [congruence|rewrite K in Ie; destruct Ie|]. destruct Sc as (T' & Ty' & _ & Sk). rewrite Ty in Ty'. injection Ty' as <-.
    destruct (tkind T) as [| | | | | |[]| | | | | |]; cbn in Ie; try contradiction; destruct Ie as [<-|[]]; try (exists p, h'; exact Sk). exists p, 0%N. exact (proj2 Sk).
  - destruct Cs as [[Hd' _]|[(l & fs' & _ & _ & _ & Sc)|(_ & Ns & _)]]; [congruence| |exfalso; exact (Ns _ K)]. destruct Sc as (T' & l' & _ & _ & _ & Sf' & F).
    assert (Et : itype it = t) by (destruct Hit as [->| ->]; reflexivity). rewrite Et, Sf in Sf'. injection Sf' as ->. apply in_map_iff in Ic as (f & <- & If). rewrite Forall_forall in F. destruct (F f If) as [A B]. destruct Hx as [->| ->]; eauto.
Qed.
Lemma serves_lacks E O G o it h : sound E O G -> serves E G o it h -> ~ lacks E it.
Proof.
  intros Sd S (T' & Bk & L). destruct (serves_cases E O G o it h Sd S) as (T & Ty & Cs). apply by_kind_flag in Bk as [Ty' Hd]. rewrite Ty in Ty'. injection Ty' as <-.
  destruct Cs as [[Hd' _]|[(l & fs & K & _)|(_ & _ & h' & p & _ & _ & Sc)]]; [congruence|rewrite K in L; exact L|]. destruct Sc as (T' & Ty' & _ & Sk). rewrite Ty in Ty'. injection Ty' as <-.
  destruct (tkind T) as [| | | | | |[]| | | |k e| |]; try contradiction. destruct Sk as [Ko _]. assert (keyOk E (if idec it then isTextU else isText) k = false); [|congruence]. apply keyOk_false. destruct it; exact L.
Qed.
Lemma serves_star E O G a c : sound E O G -> uses_star E O a c -> forall o h, serves E G o a h -> exists o' h', serves E G o' c h'.
Proof. intro Sd. induction 1 as [|a b c U _ IH]; intros o h S; [eauto|]. destruct (serves_uses E O G o a h b Sd S U) as (o' & h' & S'). eauto. Qed.

(* ---- building fails only for a reason ---- *)
Definition inRangeI (E : env) (x : item) : Prop := itype x < length (types E).
Lemma uses_range E O a c : wf_types E -> uses E O a c -> inRangeI E c.
Proof.
  intros (W & _) U. inversion U as [t T e Bk Ie|t T e Bk Ie|it' t T fs cs d x' Hit Bk K Sf Ic Hx]; subst.
  - apply by_kind_flag in Bk as [Ty _]. apply (W t (tkind T) e (typeOf_kindOf _ _ _ Ty)). destruct (tkind T); cbn in *; intuition auto.
  - apply by_kind_flag in Bk as [Ty _]. apply (W t (tkind T) e (typeOf_kindOf _ _ _ Ty)). destruct (tkind T); cbn in *; intuition auto.
  - destruct (structFields_offers _ _ _ _ Sf) as (l & Ol & ->). destruct (fold_subseq l []) as (l' & Fl & Sl). rewrite Fl in Ic. cbn in Ic.
    pose proof (proj1 (offers_ctype_lt E O W) _ _ _ Ol d (subseq_In _ _ Sl d Ic)). destruct Hx as [->| ->]; exact H.
Qed.
Definition reason (E : env) (O : opts) (it : item) : Prop := exists x, uses_star E O it x /\ lacks E x.
Lemma reason_uses E O it x : uses E O it x -> reason E O x -> reason E O it.
Proof. intros U (y & S & L). exists y. split; auto. eapply us_step; eassumption. Qed.
Lemma cached_none E O (mk : makes) : (forall it h st, inRangeI E it -> mk it h st = Ok None -> reason E O it) -> forall it h st, inRangeI E it -> cached mk it h st = Ok None -> reason E O it.
Proof.
  intros H it h st R C. unfold cached in C. destruct (cachedAs (idec it) st (itype it) h); [discriminate|]. destruct (mk it h st) as [[[p st1]|]| |] eqn:Em; try discriminate. eapply H; eassumption.
Qed.
Lemma makeFields_none E O get : (forall it h st, inRangeI E it -> get it h st = Ok None -> reason E O it) -> forall cs st, (forall c, In c cs -> ctype c < length (types E)) ->
  makeFields get cs st = Ok None -> exists c, In c cs /\ (reason E O (IDec (ctype c)) \/ reason E O (IEnc (ctype c))).
Proof.
  intros H. induction cs as [|c cs IH]; intros st R M; cbn [makeFields] in M; [discriminate|]. pose proof (R c (or_introl eq_refl)) as Rc.
  destruct (get (IDec (ctype c)) 0%N st) as [[[d st1]|]| |] eqn:Ed; try discriminate; cbn [bind] in M; [|exists c; split; [left; reflexivity|left; eapply H; [exact Rc|exact Ed]]].
  destruct (get (IEnc (ctype c)) (chints c) st1) as [[[e st2]|]| |] eqn:Ee; try discriminate; cbn [bind] in M; [|exists c; split; [left; reflexivity|right; eapply H; [exact Rc|exact Ee]]].
  destruct (makeFields get cs st2) as [[[fs0 st3]|]| |] eqn:Ef; try discriminate. destruct (IH st2 ltac:(intros; apply R; right; assumption) Ef) as (c' & Ic & Hc). exists c'. split; [right; exact Ic|exact Hc].
Qed.
Lemma makeOne_none E O get it h e st : (forall it h st, inRangeI E it -> get it h st = Ok None -> reason E O it) -> inRangeI E (isub it e) -> makeOne get it h e st = Ok None -> reason E O (isub it e).
Proof. intros H R M. unfold makeOne in M. destruct (get (isub it e) h _) as [[[p st1]|]| |] eqn:Em; try discriminate. eapply H; eassumption. Qed.
Lemma make_none E O : wf_types E -> forall fuel it h st, inRangeI E it -> make fuel E O it h st = Ok None -> reason E O it.
Proof.
  intro W. induction fuel as [|k IH]; [discriminate|]. intros it h st R M. cbn [make] in M. destruct (typeOf E (itype it)) as [T|] eqn:Ty; [|exfalso; apply (proj2 (nth_error_Some (types E) (itype it)) R); exact Ty].
  destruct (handled it (tmeth T)) eqn:Hd; [discriminate|]. pose proof (by_kind_methods E it T Ty Hd) as Bk. pose proof (cached_none E O (make k E O) IH) as Sub.
  assert (One : forall e h, In e (elems (tkind T)) -> makeOne (cached (make k E O)) it h e st = Ok None -> reason E O it).
  { intros e h' Ie M'. assert (U : uses E O it (isub it e)) by (destruct it; econstructor; eassumption). eapply reason_uses; [exact U|]. eapply makeOne_none; [exact Sub|eapply uses_range; eassumption|exact M']. }
  destruct (tkind T) as [| | | | | |[]|e|e|n e|key e|fl|] eqn:K; try discriminate; try (eapply One; [left; reflexivity|exact M]).
  - exists it. split; [constructor|]. exists T. split; auto. rewrite K. exact Logic.I.
  - destruct (keyOk E _ key) eqn:Ko; [eapply One; [left; reflexivity|exact M]|]. exists it. split; [constructor|]. exists T. split; auto. rewrite K. apply keyOk_false in Ko. destruct it; exact Ko.
  - destruct (cachedStruct st (itype it)); [discriminate|]. destruct (structFields E O (itype it)) as [cs| |] eqn:Sf; try discriminate. cbn [bind] in M.
    destruct (makeFields _ cs _) as [[[fs st2]|]| |] eqn:Ef; try discriminate.
    assert (U : forall c x, In c cs -> x = IDec (ctype c) \/ x = IEnc (ctype c) -> uses E O it x) by (intros c x Ic Hx; eapply us_field; try eassumption; destruct it; auto).
    destruct (makeFields_none E O _ Sub cs _ ltac:(intros c Ic; exact (uses_range E O _ _ W (U c _ Ic (or_introl eq_refl)))) Ef) as (c & Ic & [Rc|Rc]); eapply reason_uses; try exact Rc; eapply U; eauto.
  - exists it. split; [constructor|]. exists T. split; auto. rewrite K. exact Logic.I.
Qed.

(* ---- building returns ---- *)
Definition missing (E : env) (st : bstate) : nat := length (filter (fun t => match cachedStruct st t with None => true | Some _ => false end) (seq 0 (length (types E)))).
Lemma filter_mono {A} (p q : A -> bool) l : (forall x, p x = true -> q x = true) -> length (filter p l) <= length (filter q l).
Proof. intro H. induction l as [|x l IH]; cbn; auto. destruct (p x) eqn:Px; [rewrite (H x Px); cbn; lia|]. destruct (q x); cbn; lia. Qed.
Lemma filter_less {A} (p q : A -> bool) l x : (forall x, p x = true -> q x = true) -> In x l -> q x = true -> p x = false -> length (filter p l) < length (filter q l).
Proof.
  intros H. induction l as [|y l IH]; intros I Q P; [destruct I|]. cbn. destruct I as [->|I].
  - rewrite P, Q. cbn. pose proof (filter_mono p q l H). lia.
  - specialize (IH I Q P). destruct (p y) eqn:Py; [rewrite (H y Py); cbn; lia|]. destruct (q y); cbn; lia.
Qed.
Lemma missing_keeps E st st' : keeps st st' -> missing E st' <= missing E st.
Proof. intros [_ K]. apply filter_mono. intros t H. destruct (cachedStruct st t) as [q|] eqn:C; auto. rewrite (K _ _ C) in H. discriminate. Qed.
Lemma missing_less E st st' t q : keeps st st' -> t < length (types E) -> cachedStruct st t = None -> cachedStruct st' t = Some q -> missing E st' < missing E st.
Proof.
  intros [_ K] L C C'. apply (filter_less _ _ _ t); [|apply in_seq; lia|rewrite C; reflexivity|rewrite C'; reflexivity].
  intros u H. destruct (cachedStruct st u) as [p|] eqn:Cu; auto. rewrite (K _ _ Cu) in H. discriminate.
Qed.
Lemma missing_all E st : missing E st <= length (types E).
Proof. unfold missing. rewrite <- (seq_length (length (types E)) 0) at 2. generalize (seq 0 (length (types E))). induction l as [|x l IH]; cbn; [lia|]. destruct (match cachedStruct st x with None => true | Some _ => false end); cbn; lia. Qed.

(* Q: the chain of elements being built since the last struct, all in the cache *)
Definition chain (E : env) (dec : bool) (h hs : N) (st : bstate) (Q : list (tid * N)) : Prop :=
  NoDup Q /\ (forall t g, In (t, g) Q -> t < length (types E) /\ cachedAs dec st t g <> None /\ (g = hs \/ g = 0%N)) /\ (h = hs \/ h = 0%N) /\ (h <> 0%N -> forall t g, In (t, g) Q -> g = h).
Lemma chain_short E dec h hs st Q : chain E dec h hs st Q -> length Q <= 2 * length (types E).
Proof.
  intros (N & A & _). set (n := length (types E)) in *.
  assert (I : incl Q (map (fun t => (t, hs)) (seq 0 n) ++ map (fun t => (t, 0%N)) (seq 0 n))).
  { intros [t g] I. destruct (A t g I) as (L & _ & [->| ->]); apply in_app_iff; [left|right]; apply in_map_iff; exists t; split; auto; apply in_seq; lia. }
  pose proof (NoDup_incl_length N I) as H. rewrite app_length, !map_length, seq_length in H. lia.
Qed.
Lemma cachedAs_grow dec st G' t g : grows (bheap st) G' -> cachedAs dec st t g <> None -> cachedAs dec (mkB G' (bcache st)) t g <> None.
Proof.
  unfold cachedAs. cbn [bcache bheap]. intros Gr C. destruct (lookupKey (bcache st) t g) as [p|]; [|congruence]. destruct (nth_error (bheap st) p) as [c|] eqn:N; [|congruence].
  destruct (Gr p c N) as (c' & -> & Hh). rewrite (fits_head dec _ _ Hh). destruct (fits dec c); congruence.
Qed.
Lemma cachedAs_put dec st t h o u g c : nth_error (bheap st) o = Some c -> fits dec c = true -> cachedAs dec st u g <> None \/ (u, g) = (t, h) -> cachedAs dec (put st t h o) u g <> None.
Proof.
  intros N F H. unfold cachedAs in *. rewrite lookup_put. cbn [bheap put]. destruct ((t =? u) && (h =? g)%N) eqn:K; [rewrite N, F; discriminate|]. destruct H as [H|H]; auto. apply key_neq in K. congruence.
Qed.
Lemma makeOne_total E O mk it T h hk hs e st P Q : inv E O P st -> typeOf E (itype it) = Some T -> handled it (tmeth T) = false -> (forall l, tkind T <> KStruct l) ->
  (idec it = true -> hk = 0%N) -> inRangeI E it -> inRangeI E (isub it e) -> chain E (idec it) h hs st Q -> (hk = h \/ hk = 0%N) -> ~ In (itype it, h) Q ->
  (forall P it' st' Q', idec it' = idec it -> inv E O P st' -> inRangeI E it' -> chain E (idec it') hk hs st' Q' -> ~ In (itype it', hk) Q' -> missing E st' <= missing E st -> length Q' = S (length Q) -> exists r, mk it' hk st' = Ok r) ->
  exists r, makeOne (cached mk) it hk e st = Ok r.
Proof.
  intros I Ty Hd Ns Hh R Re Ch Hk Nq Mk. unfold makeOne. set (c0 := CKind it hk 0). set (q := length (bheap st)). set (st1 := put (alloc st c0) (itype it) hk q).
  assert (I0 : inv E O (q :: P) (alloc st c0)) by (apply inv_alloc; [exact I|discriminate]).
  assert (S0 : serves E (bheap (alloc st c0)) q it hk) by (unfold serves; rewrite (alloc_at st c0 : nth_error _ q = _); cbn; auto).
  assert (I1 : inv E O (q :: P) st1) by (apply inv_put; assumption).
  assert (K1 : keeps st st1).
  { split; [apply grows_alloc|]. intros t x C. apply cachedStruct_put; [apply (proj2 (keeps_alloc st c0)); exact C|]. intro K. injection K as <- _. exfalso.
    destruct I as (_ & En & Sx). destruct (cachedStruct_at E _ _ _ En C) as (fs & N). specialize (Sx _ _ _ N). unfold isStruct in Sx. rewrite Ty in Sx. destruct (tkind T) eqn:K; try discriminate. exact (Ns _ eq_refl). }
  assert (Nk : ~ In (itype it, hk) Q).
  { destruct Hk as [->| ->]; auto. intro Iq. destruct (N.eq_dec h 0) as [->|Nz]; auto. destruct Ch as (_ & _ & _ & A). specialize (A Nz _ _ Iq). congruence. }
  assert (Di : idec (isub it e) = idec it) by (destruct it; reflexivity).
  assert (Ch1 : chain E (idec it) hk hs st1 ((itype it, hk) :: Q)).
  { destruct Ch as (Nd & A & B & C). split; [constructor; assumption|]. split; [|split].
    - intros t g [Eq|Iq].
      + injection Eq as <- <-. split; [exact R|]. split; [|destruct Hk as [->| ->]; auto]. eapply cachedAs_put; [apply (alloc_at st c0)|cbn; apply Bool.eqb_reflx|right; reflexivity].
      + destruct (A t g Iq) as (L & Ca & Hg). split; [exact L|]. split; [|exact Hg]. eapply cachedAs_put; [apply (alloc_at st c0)|cbn; apply Bool.eqb_reflx|left]. apply (cachedAs_grow _ st); [apply grows_alloc|exact Ca].
    - destruct Hk as [->| ->]; auto.
    - intros Nz t g [Eq|Iq]; [congruence|]. destruct Hk as [->|]; [|contradiction]. exact (C Nz t g Iq). }
  unfold cached. rewrite Di. replace (itype (isub it e)) with e by (destruct it; reflexivity).
  destruct (cachedAs (idec it) st1 e hk) eqn:Ca; [cbn [bind]; eauto|].
  destruct (Mk (q :: P) (isub it e) st1 ((itype it, hk) :: Q) Di I1 Re ltac:(rewrite Di; exact Ch1)) as (r & Er).
  - replace (itype (isub it e)) with e by (destruct it; reflexivity). intro Iq. destruct Ch1 as (_ & A & _). destruct (A _ _ Iq) as (_ & Nn & _). contradiction.
  - apply missing_keeps. exact K1.
  - reflexivity.
  - rewrite Er. destruct r as [[p st2]|]; cbn [bind]; eauto.
Qed.
Lemma makeFields_total E O get P m : sub_ok E O get ->
  (forall it h st, inv E O P st -> inRangeI E it -> (idec it = true -> h = 0%N) -> missing E st <= m -> exists r, get it h st = Ok r) ->
  forall cs st, inv E O P st -> (forall c, In c cs -> ctype c < length (types E)) -> missing E st <= m -> exists r, makeFields get cs st = Ok r.
Proof.
  intros Sub Tot. induction cs as [|c cs IH]; intros st I R M; cbn [makeFields]; [eauto|]. pose proof (R c (or_introl eq_refl)) as Rc.
  destruct (Tot (IDec (ctype c)) 0%N st I Rc (fun _ => eq_refl) M) as (r & Er). rewrite Er. cbn [bind]. destruct r as [[d st1]|]; [|eauto]. destruct (Sub P _ _ _ _ _ I (fun _ => eq_refl) Er) as (I1 & K1 & _).
  pose proof (missing_keeps E _ _ K1).
  destruct (Tot (IEnc (ctype c)) (chints c) st1 I1 Rc ltac:(discriminate) ltac:(lia)) as (r2 & Er2). rewrite Er2. cbn [bind]. destruct r2 as [[e st2]|]; [|eauto]. destruct (Sub P (IEnc (ctype c)) (chints c) st1 e st2 I1 ltac:(discriminate) Er2) as (I2 & K2 & _).
  pose proof (missing_keeps E _ _ K2). destruct (IH st2 I2 ltac:(intros; apply R; right; assumption) ltac:(lia)) as (r3 & ->). cbn [bind]. eauto.
Qed.
Lemma make_total E O : wf_types E -> (forall t, isStruct E t = true -> structFields E O t <> Diverge) ->
  forall fuel it h st P Q hs, inv E O P st -> inRangeI E it -> (idec it = true -> h = 0%N) -> chain E (idec it) h hs st Q -> ~ In (itype it, h) Q ->
  missing E st * (2 * length (types E) + 2) + (2 * length (types E) + 1 - length Q) <= fuel -> exists r, make fuel E O it h st = Ok r.
Proof.
  intros W D. set (n := length (types E)). induction fuel as [|k IH]; intros it h st P Q hs I R Hh Ch Nq L; pose proof (chain_short _ _ _ _ _ _ Ch) as Sh; fold n in Sh; [lia|]. cbn [make].
  destruct (typeOf E (itype it)) as [T|] eqn:Ty; [|eauto]. destruct (handled it (tmeth T)) eqn:Hd; [eauto|].
  assert (One : forall e hk, In e (elems (tkind T)) -> (forall l, tkind T <> KStruct l) -> (hk = h \/ hk = 0%N) -> exists r, makeOne (cached (make k E O)) it hk e st = Ok r).
  { intros e hk Ie Ns Hk. assert (U : uses E O it (isub it e)) by (pose proof (by_kind_methods E it T Ty Hd); destruct it; econstructor; eassumption).
    assert (Hd0 : idec it = true -> hk = 0%N) by (intro Q0; destruct Hk as [->|]; auto).
    eapply makeOne_total; try eassumption; [eapply uses_range; eassumption|]. intros P' it' st' Q' Di I' R' Ch' Nq' Mi Lq. eapply IH; try eassumption; [rewrite Di; exact Hd0|]. fold n in Mi |- *.
    pose proof (chain_short _ _ _ _ _ _ Ch') as Sh'. fold n in Sh'. assert (missing E st' * (2 * n + 2) <= missing E st * (2 * n + 2)) by (apply Nat.mul_le_mono_r; exact Mi). lia. }
  destruct (tkind T) as [| | | | | |[]|e|e|nn e|key e|fl|] eqn:K; try (eexists; reflexivity); try (apply One; [left; reflexivity|discriminate|auto]).
  - destruct (keyOk E _ key); [|eauto]. apply One; [left; reflexivity|discriminate|auto].
  - destruct (cachedStruct st (itype it)) as [q0|] eqn:Cs; [eauto|]. assert (Ss : isStruct E (itype it) = true) by (unfold isStruct; rewrite Ty, K; reflexivity).
    destruct (structFields E O (itype it)) as [cs| |] eqn:Sf; [|exfalso; exact (proj2 (structFields_total_lem E O _ Ss) Sf)|exfalso; exact (D _ Ss Sf)]. cbn [bind].
    set (q := length (bheap st)). set (c0 := CStruct (itype it) []). set (st1 := put (alloc st c0) (itype it) 0 q).
    assert (I0 : inv E O (q :: P) (alloc st c0)) by (apply inv_alloc; [exact I|]; intros t fs0 Eq; injection Eq as <- _; exact Ss).
    assert (I1 : inv E O (q :: P) st1) by (apply inv_put; auto; unfold serves; rewrite (alloc_at st c0 : nth_error _ q = _); cbn; auto).
    assert (K1 : keeps st st1).
    { split; [apply grows_alloc|]. intros t x C. apply cachedStruct_put; [apply (proj2 (keeps_alloc st c0)); exact C|]. intro Kk. injection Kk as <-. congruence. }
    assert (C1 : cachedStruct st1 (itype it) = Some q).
    { unfold cachedStruct, st1. rewrite lookup_put, Nat.eqb_refl, N.eqb_refl. cbn [andb bheap put]. rewrite (alloc_at st c0 : nth_error _ q = _). reflexivity. }
    pose proof (missing_less E st st1 _ _ K1 R Cs C1) as Ml.
    assert (U : forall c, In c cs -> ctype c < n).
    { intros c Ic. refine (uses_range E O it (IDec (ctype c)) W _). apply (us_field E O it (itype it) T fl cs c); [destruct it; [left|right]; reflexivity|apply (by_kind_methods E it T Ty Hd)|exact K|exact Sf|exact Ic|auto]. }
    destruct (makeFields_total E O (cached (make k E O)) (q :: P) (missing E st1)) with (cs := cs) (st := st1) as (r & ->); auto.
    + apply cached_ok. apply make_made.
    + intros it' h' st' I' R' Hh' M'. unfold cached. destruct (cachedAs (idec it') st' (itype it') h'); [eauto|]. destruct (IH it' h' st' (q :: P) [] h' I' R' Hh') as (r & ->).
      * split; [constructor|]. split; [intros t g []|]. split; [auto|]. intros _ t g [].
      * intros [].
      * cbn [length]. assert (missing E st' * (2 * n + 2) <= (missing E st - 1) * (2 * n + 2)) by (apply Nat.mul_le_mono_r; lia).
        assert ((missing E st - 1) * (2 * n + 2) + (2 * n + 2) = missing E st * (2 * n + 2)) by (destruct (missing E st); [lia|]; cbn [Nat.sub]; rewrite Nat.sub_0_r; lia). lia.
      * cbn [bind]. destruct r as [[? ?]|]; eauto.
    + cbn [bind]. destruct r as [[? ?]|]; eauto.
Qed.
Lemma newCodec_total E O it : wf_types E -> (forall t, isStruct E t = true -> structFields E O t <> Diverge) -> inRangeI E it -> exists r, newCodec E O it = Ok r.
Proof.
  intros W D R. unfold newCodec. set (n := length (types E)).
  destruct (make_total E O W D (S n * (2 * n + 2)) it 0 (mkB [] []) [] [] 0) as (r & ->); auto.
  - split; [|split]; [intros [|] c N; discriminate|intros t h q L; discriminate|intros [|] t fs N; discriminate].
  - split; [constructor|]. split; [intros t g []|]. split; [auto|]. intros _ t g [].
  - fold n. cbn [length]. pose proof (missing_all E (mkB [] [])) as H. fold n in H. assert (missing E (mkB [] []) * (2 * n + 2) <= n * (2 * n + 2)) by (apply Nat.mul_le_mono_r; exact H). cbn [Nat.mul]. lia.
  - cbn [bind]. eauto.
Qed.
Lemma C54_lem E O it : wf_types E -> (forall t, ~ cyclic E O t) -> itype it < length (types E) ->
  exists r, newCodec E O it = Ok r /\ (r = None <-> exists x, uses_star E O it x /\ lacks E x).
Proof.
  intros W NC R. assert (D : forall t, isStruct E t = true -> structFields E O t <> Diverge) by (intros t S K; apply (NC t); apply (structFields_total_lem E O t S); exact K).
  destruct (newCodec_total E O it W D R) as (r & Er). exists r. split; auto. split.
  - intros ->. unfold newCodec in Er. destruct (make _ E O it 0 (mkB [] [])) as [[[p st]|]| |] eqn:M; try discriminate. eapply make_none; [exact W|exact R|exact M].
  - intros (x & U & L). destruct r as [[o G]|]; auto. exfalso. destruct (newCodec_sound E O it o G Er) as [Sd S]. destruct (serves_star E O G it x Sd U o 0%N S) as (o' & h' & S'). exact (serves_lacks E O G o' x h' Sd S' L).
Qed.
