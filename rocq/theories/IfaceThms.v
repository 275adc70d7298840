(* Lemmas for C24. *)
From Verif Require Import Bytes Types JsonSpec Parser Doc DocSpec DocDec DocProofs Strjson StrThms Float FloatSpec Num Iface IfaceSpec.
Open Scope nat_scope.

Lemma feq_self f : feq f f = true <-> f <> FNaN.
Proof.
  destruct f as [|s|s m e]; unfold feq, fcmp; [split; congruence|destruct s; cbn; split; congruence|]. cbv zeta. rewrite Z.compare_refl. split; congruence.
Qed.
Lemma numbers_dec : forall t, numbers_parse t \/ ~ numbers_parse t.
Proof.
  induction t using jval_ind'; try (left; constructor; fail).
  - destruct (ParseFloat w) eqn:E; [right; intro H; inversion H; congruence| |]; left; constructor; rewrite E; discriminate.
  - assert (D : Forall numbers_parse vs \/ ~ Forall numbers_parse vs).
    { induction H as [|t ts H F IH]; [left; constructor|]. destruct H, IH; [left; constructor; auto|right|right|right]; intro K; inversion K; auto. }
    destruct D; [left; constructor; auto|right; intro K; inversion K; auto].
  - assert (D : Forall (fun m => numbers_parse (snd m)) ms \/ ~ Forall (fun m => numbers_parse (snd m)) ms).
    { induction H as [|t ts H F IH]; [left; constructor|]. destruct H, IH; [left; constructor; auto|right|right|right]; intro K; inversion K; auto. }
    destruct D; [left; constructor; auto|right; intro K; inversion K; auto].
Qed.

(* maps *)
Lemma assign_keys {A} k (x : A) m : NoDup (map fst m) -> NoDup (map fst (assign k x m)).
Proof.
  assert (G : forall m : list (bytes * A), ~ In k (map fst m) \/ In k (map fst m) -> forall j, In j (map fst (assign k x m)) -> j = k \/ In j (map fst m)).
  { clear m. induction m as [|[k' y] m IH]; cbn; [intros _ j [<-|[]]; auto|]. intros _ j. destruct (bseqb k' k) eqn:E; cbn; [intros [<-|I]; auto|].
    intros [<-|I]; auto. destruct (IH ltac:(destruct (in_dec (list_eq_dec byte_eq_dec) k (map fst m)); auto) j I); auto. }
  induction m as [|[k' y] m IH]; cbn; intro N; [constructor; auto; constructor|]. inversion N; subst. destruct (bseqb k' k) eqn:E; cbn.
  - constructor; auto.
  - constructor; auto. intro I. apply G in I; [|destruct (in_dec (list_eq_dec byte_eq_dec) k (map fst m)); auto].
    destruct I as [->|I]; [|contradiction]. rewrite bseqb_refl in E. discriminate.
Qed.
Lemma assign_assoc {A} k (x : A) m j : assoc j (assign k x m) = if bseqb j k then Some x else assoc j m.
Proof.
  induction m as [|[k' y] m IH]; cbn; [reflexivity|]. destruct (bseqb k' k) eqn:E; cbn.
  - apply bseqb_true in E. subst. destruct (bseqb j k) eqn:E'; auto.
  - destruct (bseqb j k') eqn:E'; auto. apply bseqb_true in E'. subst. rewrite E. reflexivity.
Qed.
Lemma assoc_app {A} k (a b : list (bytes * A)) : assoc k (a ++ b) = match assoc k a with Some x => Some x | None => assoc k b end.
Proof. induction a as [|[k' y] a IH]; cbn; auto. destruct (bseqb k k'); auto. Qed.

Definition converts (rec : N -> res (option goval)) (ns : list node) (t : jval) : Prop := forall id, denotes ns id t ->
  (numbers_parse t -> exists v, rec id = Ok (Some v) /\ go_of t v) /\ (~ numbers_parse t -> rec id = Ok None).
Lemma slice_lem rec ns : forall ts, Forall (converts rec ns) ts -> forall l, denotes_list ns l ts -> forall acc,
  (Forall numbers_parse ts -> exists vs, toInterfaceSlice rec l acc = Ok (Some (GSlice (acc ++ vs))) /\ Forall2 go_of ts vs) /\
  (~ Forall numbers_parse ts -> toInterfaceSlice rec l acc = Ok None).
Proof.
  induction 1 as [|t ts C F IH]; intros l Hl acc; inversion Hl as [|v l' t' ts' Kv Dv Dl]; subst; cbn [toInterfaceSlice].
  - split; [intros _; exists []; rewrite app_nil_r; auto|intro K; exfalso; apply K; constructor].
  - destruct (C _ Dv) as [C1 C2]. destruct (numbers_dec t) as [N|N].
    + destruct (C1 N) as (x & E & G). rewrite E. cbn [bind]. destruct (IH _ Dl (acc ++ [x])) as [I1 I2]. split.
      * intro K. apply Forall_cons_iff in K as [_ K]. destruct (I1 K) as (vs & Ev & Fv). exists (x :: vs). rewrite Ev, <- app_assoc. split; auto.
      * intro K. apply I2. intro Q. apply K. constructor; auto.
    + rewrite (C2 N). cbn [bind]. split; [|auto]. intro K. apply Forall_cons_iff in K as [K _]. contradiction.
Qed.
Lemma map_lem rec ns : forall ms, Forall (fun m => converts rec ns (snd m)) ms -> forall l, denotes_members ns l ms -> forall acc, NoDup (map fst acc) ->
  (Forall (fun m => numbers_parse (snd m)) ms -> exists vs m, toInterfaceMap rec l acc = Ok (Some (GMap m)) /\
     Forall2 (fun x y => fst x = fst y /\ go_of (snd x) (snd y)) ms vs /\ NoDup (map fst m) /\
     forall k, assoc k m = match assoc k (rev vs) with Some x => Some x | None => assoc k acc end) /\
  (~ Forall (fun m => numbers_parse (snd m)) ms -> toInterfaceMap rec l acc = Ok None).
Proof.
  induction 1 as [|t ts C F IH]; intros l Hl acc Na; inversion Hl as [|v l' t' ts' Dv Dl]; subst; cbn [toInterfaceMap].
  - split; [intros _; exists [], acc; auto|intro K; exfalso; apply K; constructor].
  - destruct (C _ Dv) as [C1 C2]. cbn [snd] in *. destruct (numbers_dec t') as [N|N].
    + destruct (C1 N) as (x & E & G). rewrite E. cbn [bind]. destruct (IH _ Dl (assign (vkey v) x acc) (assign_keys _ _ _ Na)) as [I1 I2]. split.
      * intro K. apply Forall_cons_iff in K as [_ K]. destruct (I1 K) as (vs & m & Ev & Fv & Nm & Am). exists ((vkey v, x) :: vs), m. split; auto. split; [constructor; auto|].
        split; auto. intro k. rewrite Am, assign_assoc. cbn [rev]. rewrite assoc_app. destruct (assoc k (rev vs)); auto. cbn [assoc]. destruct (bseqb k (vkey v)); auto.
      * intro K. apply I2. intro Q. apply K. constructor; auto.
    + rewrite (C2 N). cbn [bind]. split; [|auto]. intro K. apply Forall_cons_iff in K as [K _]. contradiction.
Qed.

Lemma toInterface_denotes ns : forall t fuel, jdepth t <= fuel -> converts (toInterface fuel ns) ns t.
Proof.
  induction t using jval_ind'; intros fuel Hf id Hd; (destruct fuel as [|f]; [simpl in Hf; lia|]); inversion Hd; subst;
    match goal with E : getNode _ _ = Some _ |- _ => cbn [toInterface]; rewrite E end;
    match goal with T : info_Type _ = _ |- _ => rewrite T end.
  - (* str *) split; [intros _|intro K; exfalso; apply K; constructor]. cbn -[Unescaped]. destruct (Unescaped_total (nraw n)) as (o & U & _). rewrite U. cbn.
    eexists. split; [reflexivity|]. constructor. auto.
  - (* num *) cbn -[ParseFloat feq]. destruct (feq (ParseFloat (nraw n)) (ParseFloat (nraw n))) eqn:E.
    + apply feq_self in E. split; [intros _; eexists; split; [reflexivity|constructor; auto]|]. intro K. exfalso. apply K. constructor. auto.
    + split; [|auto]. intro K. inversion K as [| | | |s Hs| |]; subst. apply feq_self in Hs. congruence.
  - cbn. match goal with T : nraw _ = _ |- _ => rewrite T end. split; [intros _; eexists; split; [reflexivity|constructor]|intro K; exfalso; apply K; constructor].
  - cbn. match goal with T : nraw _ = _ |- _ => rewrite T end. split; [intros _; eexists; split; [reflexivity|constructor]|intro K; exfalso; apply K; constructor].
  - cbn. split; [intros _; eexists; split; [reflexivity|constructor]|intro K; exfalso; apply K; constructor].
  - change (TypeArray =? TypeObject)%N with false. change (TypeArray =? TypeArray)%N with true. cbv iota.
    assert (C : Forall (converts (toInterface f ns) ns) vs).
    { cbn in Hf. assert (Hm : Forall (fun t => jdepth t <= f) vs) by (apply (proj1 (Forall_map jdepth (fun d => d <= f) vs)); apply list_max_le; lia).
      rewrite Forall_forall in *. intros t It. apply H; auto. }
    match goal with L : denotes_list _ _ _ |- _ => destruct (slice_lem _ ns vs C _ L []) as [S1 S2] end. split.
    + intro K. inversion K; subst. destruct S1 as (xs & E & Fx); auto. exists (GSlice xs). split; auto. constructor. auto.
    + intro K. apply S2. intro Q. apply K. constructor. auto.
  - change (TypeObject =? TypeObject)%N with true. cbv iota.
    assert (C : Forall (fun m => converts (toInterface f ns) ns (snd m)) ms).
    { cbn in Hf. assert (Hm : Forall (fun m => jdepth (snd m) <= f) ms) by (apply (proj1 (Forall_map (fun m => jdepth (snd m)) (fun d => d <= f) ms)); apply list_max_le; lia).
      rewrite Forall_forall in *. intros t It. apply H; auto. }
    match goal with L : denotes_members _ _ _ |- _ => destruct (map_lem _ ns ms C _ L [] ltac:(constructor)) as [S1 S2] end. split.
    + intro K. inversion K; subst. destruct S1 as (xs & m & E & Fx & Nm & Am); auto. exists (GMap m). split; auto. apply go_obj with xs; auto.
      intro k. rewrite Am. cbn. destruct (assoc k (rev xs)); auto.
    + intro K. apply S2. intro Q. apply K. constructor. auto.
Qed.
Lemma C24_lem w n t : tree_of w n t ->
  (numbers_parse t -> exists v, Node_ToInterface w n = Ok (Some v) /\ go_of t v) /\ (~ numbers_parse t -> Node_ToInterface w n = Ok None).
Proof.
  intros (r & d & E & Ed & Er & D). unfold Node_ToInterface, Node_Document. rewrite E. cbn [getDoc]. rewrite Ed, (proj2 (N.eqb_eq _ _) Er). cbn [getDoc]. rewrite Ed.
  apply toInterface_denotes; auto. apply denotes_depth in D. unfold depthFuel. lia.
Qed.
(* A node that is not alive gives !ok. *)
Lemma C24_invalid_lem w n : (forall t, In t [TypeObject; TypeArray; TypeString; TypeBoolean; TypeNull; TypeNumber] -> Node_Type w n <> t) -> Node_ToInterface w n = Ok None.
Proof.
  unfold Node_Type, Node_get, Node_ToInterface, Node_Document. destruct (getDoc w (ndoc n)) as [d|] eqn:E; [|intros _; cbn; destruct (nid n); reflexivity].
  destruct (drev d =? nrev n)%N; [|intros _; cbn; destruct (nid n); reflexivity]. rewrite E. intro H. unfold depthFuel. cbn [toInterface]. destruct (getNode (dnodes d) (nid n)) as [x|]; [|reflexivity].
  cbv zeta. repeat (rewrite (proj2 (N.eqb_neq _ _)) by (apply H; cbn [In]; auto 10)). reflexivity.
Qed.
Lemma C24_dead_lem w n : Node_get w n = None -> Node_ToInterface w n = Ok None.
Proof.
  unfold Node_get, Node_ToInterface, Node_Document. destruct (getDoc w (ndoc n)) as [d|] eqn:E; [|intros _; cbn; destruct (nid n); reflexivity].
  destruct (drev d =? nrev n)%N; [|intros _; cbn; destruct (nid n); reflexivity]. rewrite E. intro H. unfold depthFuel. cbn [toInterface]. rewrite H. reflexivity.
Qed.
