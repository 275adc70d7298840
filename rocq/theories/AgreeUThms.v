(* The generated UnmarshalNodeJSON and Unmarshal store the same value (C74). *)
From Verif Require Import FloatSpec NumSpec FmtSpec StrSpec StrThms Bytes Types JsonSpec Parser ParserThms Doc DocSpec OkThms Strjson Float Num NumInt Iface IfaceSpec Wrap Options Codec CodecSpec CodecMerge CodecBase CodecEnc DecodeSpec DecodeThms RoundSpec RoundThms Gen GenSpec GenMakeU GenDec GenRound TreeSpec TreeThms GoLitSpec OptSpec OptThms GenFields AgreeSpec AgreeThms AgreeUSpec.
Local Open Scope nat_scope.
Notation D := decodeOptions.

Ltac one_kinds := repeat match goal with
  | A : _ \/ _ |- _ => match type of A with context [kindOf] => destruct A end
  | A : kindOf ?E ?t = Some ?k, B : kindOf ?E ?t = Some ?k' |- _ => first [constr_eq A B; fail 1 | rewrite A in B; first [discriminate B | injection B; clear B; intros; subst]]
  end.

(* ---- there is one blank value of a type ---- *)
Lemma Forall_one {A} (P : A -> Prop) : forall l l', (forall x y, In x l -> P x -> P y -> x = y) -> length l = length l' -> Forall P l -> Forall P l' -> l = l'.
Proof.
  induction l as [|x l IH]; intros [|y l'] H L F F'; try discriminate; [reflexivity|]. inversion F; subst. inversion F'; subst. f_equal; [apply H; auto; left; reflexivity|].
  apply IH; auto. intros a b I. apply H. right. exact I.
Qed.
Lemma blank_one E : forall n z t z', vdepth z <= n -> blank E t z -> blank E t z' -> z = z'.
Proof.
  induction n as [|n IH]; intros z t z' L B B'.
  { inversion B; subst; try (inversion B'; subst; one_kinds; try reflexivity; fail); cbn [vdepth] in L; lia. }
  inversion B; subst; inversion B'; subst; one_kinds; try reflexivity.
  - f_equal. match goal with A : Forall _ ?l, C : Forall _ ?l' |- ?l = ?l' => eapply Forall_one; [|congruence|exact A|exact C] end. intros x y I. apply IH. pose proof (In_max vdepth _ x I). cbn [vdepth] in L. lia.
  - f_equal. match goal with A : Forall2 _ ?fs ?l, C : Forall2 _ _ ?l' |- ?l = ?l' => rename A into F; rename C into F' end. assert (Hl : forall x, In x l -> vdepth x <= n) by (intros x I; pose proof (In_max vdepth _ x I); cbn [vdepth] in L; lia).
    clear - IH F F' Hl. revert l0 F'. induction F as [|f x fs l Bx F IHF]; intros l0 F'; inversion F' as [|? x' ? l1 Bx' F1]; subst; [reflexivity|]. f_equal; [eapply IH; eauto; apply Hl; left; reflexivity|apply IHF; auto]. intros a I. apply Hl. right. exact I.
Qed.
Lemma blank_eq E t z z' : blank E t z -> blank E t z' -> z = z'.
Proof. apply (blank_one E (vdepth z)). lia. Qed.
Lemma blanks_eq E t l l' : length l = length l' -> Forall (blank E t) l -> Forall (blank E t) l' -> l = l'.
Proof. intros. eapply Forall_one; eauto. intros x y _. apply blank_eq. Qed.

(* ---- paths without pointers ---- *)
Lemma lay_put E t v p o y v' : lay E t v p o y v' -> Forall (fun i => 0 <= i)%Z p -> put v p o y v'.
Proof. induction 1; intro F; try (inversion F; lia); constructor. apply IHlay. inversion F; assumption. Qed.
Lemma put_swap v p o y v' : put v p o y v' -> put v' p y o v.
Proof. induction 1; constructor; auto. Qed.
Lemma put_same v p o y v' : put v p o y v' -> forall o' y' v'', put v p o' y' v'' -> o' = o /\ (y' = y -> v'' = v').
Proof.
  induction 1 as [|a x b path o y x' P IH]; intros o' y' v'' P'; inversion P' as [|a2 x2 b2 path2 o2 y2 x2' P2]; subst; auto.
  match goal with A : Z.of_nat _ = Z.of_nat _ |- _ => apply Nat2Z.inj in A; rename A into L end. match goal with A : a2 ++ x2 :: b2 = a ++ x :: b |- _ => rename A into Q end.
  assert (a2 = a /\ x2 :: b2 = x :: b) as (-> & Q').
  { assert (H := Q). apply (f_equal (firstn (length a))) in H. rewrite <- L in H at 1. rewrite !firstn_app, !Nat.sub_diag, !firstn_all in H. cbn in H. rewrite !app_nil_r in H. subst a2. split; [reflexivity|]. apply app_inv_head in Q. exact Q. }
  injection Q' as -> ->. destruct (IH _ _ _ P2) as (A & B). split; auto. intro H. rewrite (B H). reflexivity.
Qed.

Lemma wrap_one_u bits n k k' : (0 <= n + k * 2 ^ bits < 2 ^ bits)%Z -> (0 <= n + k' * 2 ^ bits < 2 ^ bits)%Z -> (n + k' * 2 ^ bits = n + k * 2 ^ bits)%Z.
Proof. intros. assert (k = k') by nia. subst. reflexivity. Qed.
Lemma wrap_one bits n k k' : (- 2 ^ (bits - 1) <= n + k * 2 ^ bits < 2 ^ (bits - 1))%Z -> (- 2 ^ (bits - 1) <= n + k' * 2 ^ bits < 2 ^ (bits - 1))%Z -> (n + k' * 2 ^ bits = n + k * 2 ^ bits)%Z.
Proof.
  intros R R'. destruct (Z.neg_nonneg_cases (bits - 1)) as [Hn|Hn]; [rewrite (Z.pow_neg_r 2 (bits - 1)) in R by lia; lia|].
  assert (Q : (2 ^ bits = 2 * 2 ^ (bits - 1))%Z) by (replace bits with (1 + (bits - 1))%Z at 1 by lia; rewrite Z.pow_add_r by lia; reflexivity). rewrite Q in *. assert (k = k') by nia. subst. reflexivity.
Qed.
Lemma star_snoc {A} (R : A -> A -> Prop) a b c : star R a b -> R b c -> star R a c.
Proof. intros S N. induction S as [x|x y z Nx S IH]; [eapply star_step; [exact N|constructor]|]. eapply star_step; [exact Nx|]. apply IH. exact N. Qed.
Section Agree.
  Variables (E : env) (G : gopts) (M : genv) (t0 : tid).
  Hypotheses (ES : embeds_structs E) (SR : same_reads E G M t0) (DC : decodable E D t0) (NH : ~ hazard E D t0).
  Let below (t : tid) : Prop := star (needs_u E G M) t0 t.
  Lemma down a b : below a -> needs_u E G M a b -> below b.
  Proof. apply star_snoc. Qed.
  Lemma by_kinds t : below t -> exists T, typeOf E t = Some T /\ by_kind_u M t T.
  Proof. intro B. destruct (SR t B) as (T & ET & K & _). eauto. Qed.
  Lemma not_time t : below t -> isTime M t = false.
  Proof. intro B. destruct (by_kinds t B) as (T & _ & H & _). exact H. Qed.
  Lemma not_json t : below t -> ~ by_json E M t.
  Proof. intros B (T & ET & _ & _ & _ & H). destruct (by_kinds t B) as (T' & ET' & _ & _ & N). assert (T' = T) by congruence. subst T'. unfold no_unmarshaler in N. destruct N as (? & ? & ?). congruence. Qed.
  Lemma not_text t : below t -> ~ by_text E M t.
  Proof. intros B (T & ET & _ & _ & _ & _ & H). destruct (by_kinds t B) as (T' & ET' & _ & _ & N). assert (T' = T) by congruence. subst T'. unfold no_unmarshaler in N. destruct N as (? & ? & ?). congruence. Qed.
  Lemma of_kind_kind t k : of_kind E M t k -> kindOf E t = Some k.
  Proof. intros (T & ET & _ & K). rewrite (typeOf_kindOf _ _ _ ET). congruence. Qed.
  Lemma down_elem t k e : below t -> of_kind E M t k -> match k with KPtr x | KSlice x | KMap _ x => x = e | _ => False end -> below e.
  Proof. intros B (T & ET & K & Hk) H. eapply down; [exact B|]. eapply nu_elem; eauto. rewrite Hk. exact H. Qed.
  Lemma fields_same t fs cs : below t -> kindOf E t = Some (KStruct fs) -> structFields E D t = Ok cs ->
    (forall name params f, heads E G (fieldsOf M t) name params f -> ~ raw_string E params (mtype f) /\ below (mtype f) /\ exists c, field_for cs name c /\ cindex c = mpath f /\ ctype c = mtype f) /\
    (forall c, In c cs -> exists params f, heads E G (fieldsOf M t) (ckey c) params f).
  Proof.
    intros B K F. destruct (SR t B) as (T & ET & KT & H). rewrite (typeOf_kindOf _ _ _ ET) in K. injection K as K. destruct (H fs cs K F) as (H1 & H2). split; [|exact H2].
    intros name params f Hf. destruct (H1 _ _ _ Hf) as (Nr & c & X). split; [exact Nr|]. split; [|eauto]. eapply down; [exact B|]. eapply nu_field; eauto.
  Qed.
  Lemma decodable_elem t k e : decodable E D t -> kindOf E t = Some k -> In e (elems k) -> decodable E D e.
  Proof. intros Dc K I. eapply decodable_down; [eapply reads_elem; eassumption|exact Dc]. Qed.

  Lemma below_reads t : below t -> reads E D t0 t.
  Proof.
    assert (H : forall a, star (needs_u E G M) a t -> below a -> reads E D t0 a -> reads E D t0 t).
    { induction 1 as [a|a b c N S IH]; intros B R; [exact R|]. apply IH; [eapply down; eassumption|]. eapply reads_trans; [exact R|]. inversion N as [? T e ET KT Hk|? T fs name params f ET KT Hk Hf Nr]; subst.
      - eapply reads_elem; [exact (typeOf_kindOf _ _ _ ET)|]. destruct (tkind T); try contradiction; subst; left; reflexivity.
      - destruct (DC a R) as (T' & ET' & _ & Hd). assert (T' = T) by congruence. subst T'. rewrite Hk in Hd. destruct Hd as (cs & Sf & _). assert (K : kindOf E a = Some (KStruct fs)) by (rewrite (typeOf_kindOf _ _ _ ET); congruence).
        destruct (proj1 (fields_same a fs cs B K Sf) _ _ _ Hf) as (_ & _ & d & (x & y & Ec & _) & _ & Tc). rewrite <- Tc. eapply rd_field; [exact K|exact Sf|rewrite Ec; apply in_elt|constructor]. }
    intro S. apply (H t0); [exact S|constructor|constructor].
  Qed.
  Lemma no_map t k e : below t -> kindOf E t <> Some (KMap k e).
  Proof. intros B K. apply NH. exists t. split; [apply below_reads; exact B|]. left. eauto. Qed.
  Let P (t : tid) (v : gv) (j : jval) (v' : gv) : Prop := below t -> decodable E D t -> blank E t v -> orderly j -> forall y, stored E D t v j y -> y = v'.
  Let P_each (e : tid) (l : list gv) (js : list jval) (l' : list gv) : Prop := below e -> decodable E D e -> Forall (blank E e) l -> Forall orderly js -> forall l'', stored_each E D e l js l'' -> l'' = l'.
  Let P_keys (e : tid) (box : bytes -> gv) (ms : list (bytes * jval)) (m m' : list (gv * gv)) : Prop := True.
  Let P_fields (t : tid) (ms : list (bytes * jval)) (v v' : gv) : Prop :=
    forall fs cs, below t -> decodable E D t -> kindOf E t = Some (KStruct fs) -> structFields E D t = Ok cs -> NoDup (map fst ms) -> Forall (fun m => orderly (snd m)) ms ->
    (forall c x, In c cs -> In (ckey c) (map fst ms) -> reaches v (cindex c) x -> blank E (ctype c) x) ->
    forall v'', stored_fields E D cs ms v v'' -> v'' = v'.
  Ltac kinds := repeat match goal with A : of_kind E M _ _ |- _ => apply of_kind_kind in A end; one_kinds.
  Ltac digits := match goal with A : digits_of _ _ |- _ => destruct A as [A|A]; try discriminate A; injection A as A; subst end.
  Lemma same_stored : (forall t v j v', filled E G M t v j v' -> P t v j v') /\ (forall e l js l', filled_each E G M e l js l' -> P_each e l js l') /\
    (forall e box ms m m', filled_keys E G M e box ms m m' -> P_keys e box ms m m') /\ (forall t ms v v', filled_fields E G M t ms v v' -> P_fields t ms v v').
  Proof.
    apply filled_all; unfold P, P_each, P_keys, P_fields.
    - intros t v j x Ht _ B. rewrite (not_time t B) in Ht. discriminate.
    - intros t v j x Ht _ B. destruct (not_json t B Ht).
    - intros t v s x Ht _ B. destruct (not_text t B Ht).
    - intros t b K B _ _ _ y S. inversion S; subst; kinds; intuition congruence.
    - intros t b K B _ _ _ y S. inversion S; subst; kinds; intuition congruence.
    - intros t bits z j s n k K Dg Pi R B _ _ _ y S. inversion S as [|? bits' ? s' n' k' K' Io R'| | | | | | | | | | | | | | | | | | | | | |]; subst; kinds; try digits.
      destruct Io as [Io|[Io _]]; rewrite Pi in Io; [|discriminate]. injection Io as <-. f_equal.
      eapply wrap_one; eassumption.
    - intros t bits z j s n k K Dg Pi R B _ _ _ y S. inversion S as [| | |? bits' ? s' n' k' K' Io R'| | | | | | | | | | | | | | | | | | | |]; subst; kinds; try digits.
      destruct Io as [Io|[Io _]]; rewrite Pi in Io; [|discriminate]. injection Io as <-. f_equal. eapply wrap_one_u; eassumption.
    - intros t f j s K Dg Nn B _ _ _ y S. inversion S as [| | | | |? ? ? ? ? Fo| | | | | | | | | | | | | | | | | |]; subst; kinds; try digits. destruct Fo as [[-> _]|[Fo _]]; [reflexivity|contradiction].
    - intros t f j s K Dg Nn B _ _ _ y S. inversion S as [| | | | | |? ? ? ? ? Fo| | | | | | | | | | | | | | | | |]; subst; kinds; try digits. destruct Fo as [[-> _]|[Fo _]]; [reflexivity|contradiction].
    - intros t s0 s o K U B _ _ _ y S. inversion S; subst; kinds; congruence.
    - intros t s0 j K Nj B _ _ _ y S. inversion S; subst; kinds; [|reflexivity]. destruct (Nj s eq_refl).
    - intros t e x K B _ _ _ y S. inversion S; subst; kinds; try reflexivity; contradiction.
    - intros t e x j y K Nj F IH B _ Bl. inversion Bl.
    - intros t e z j y K Nj Bz F IH B Dc Bl Or y' S. inversion S as [| | | | | | | | | | | | | ? e' z' ? y2 K' Nj' Bz' S' | | | | | | | | | |]; subst; [contradiction|]. pose proof (of_kind_kind _ _ K) as K2. assert (e' = e) by congruence. subst e'.
      f_equal. f_equal. assert (z' = z) by (eapply blank_eq; eassumption). subst z'. apply IH; auto; [eapply down_elem; [exact B|exact K|reflexivity]|eapply decodable_elem; [exact Dc|exact K2|left; reflexivity]].
    - intros t e x K B _ Bl _ y S. inversion Bl; subst. inversion S; subst; kinds; reflexivity.
    - intros t e K B _ Bl Or y S. inversion Or; contradiction.
    - intros t e x js l1 l2 s l' K Nx Gs F IH B Dc Bl Or y S. inversion Bl; subst. inversion S as [| | | | | | | | | | | | | | | ? e' ? ? l s2 l'' K' Sl Se | | | | | | | |]; subst. pose proof (of_kind_kind _ _ K) as K2. assert (e' = e) by congruence. subst e'.
      destruct Gs as (Ll & Fb & ->). destruct Sl as (Ll' & Fb' & ->). assert (L1 : length l1 = length js). { clear - F. induction F; cbn; congruence. }
      rewrite app_length in Ll. assert (l2 = []) by (destruct l2; [reflexivity|cbn in Ll; lia]). subst l2. rewrite app_nil_r in *. assert (l = l1) by (eapply blanks_eq; [lia|eassumption|eassumption]). subst l. f_equal. f_equal. f_equal.
      inversion Or; subst. apply IH; auto; [eapply down_elem; [exact B|exact K|reflexivity]|eapply decodable_elem; [exact Dc|exact K2|left; reflexivity]].
    - intros t k e x K B _ Bl _ y S. inversion Bl; subst. inversion S; subst; kinds; reflexivity.
    - intros t k box e x ms m' K _ _ _ B. destruct (no_map t k e B). apply of_kind_kind. exact K.
    - intros t fs l ms v' K F IH B Dc Bl Or y S. inversion S as [| | | | | | | | | | | | | | | | | | | | | | |? fs' cs ? ? ? K' Sf St]; subst. inversion Or; subst. eapply IH; eauto.
      intros c x Ic _ R. destruct (structFields_walks _ _ _ _ ES Sf c Ic) as (i & r & _ & Wk). eapply blank_at; eassumption.
    - intros e _ _ _ _ l'' S. inversion S; reflexivity.
    - intros e x l j js y l' F IH Fe IHe B Dc Bl Or l'' S. inversion S; subst. inversion Bl; subst. inversion Or; subst. f_equal; auto.
    - auto.
    - auto.
    - intros t v fs cs _ _ _ _ _ _ _ v'' S. inversion S; reflexivity.
    - intros t k j ms v v' Nh F IH fs cs B Dc K Sf Nd Or Inv v'' S. inversion Nd; subst. inversion Or; subst.
      assert (Inv' : forall c x, In c cs -> In (ckey c) (map fst ms) -> reaches v (cindex c) x -> blank E (ctype c) x) by (intros c x Ic Ik; apply Inv; auto; right; exact Ik).
      inversion S as [|? ? ? ? ? ? Nin S'|? ? ? ? ? c x y v1 ? Ff]; subst; [eapply IH; eauto|]. exfalso. destruct Ff as (a & b & Ec & Ek & _). destruct (proj2 (fields_same t fs cs B K Sf) c) as (params & f & Hf); [rewrite Ec; apply in_elt|]. rewrite Ek in Hf. exact (Nh _ _ Hf).
    - intros t k j ms v params f x v1 v' Hf Rs _ _ _ fs cs B Dc K Sf. destruct (proj1 (fields_same t fs cs B K Sf) _ _ _ Hf) as (Nr & _). contradiction.
    - intros t k j ms v params f x y v1 v' Hf Nr Ly F IHf Ff IH fs cs B Dc K Sf Nd Or Inv v'' S. inversion Nd as [|? ? Nk Nd']; subst. inversion Or as [|? ? Oj Or']; subst.
      destruct (proj1 (fields_same t fs cs B K Sf) _ _ _ Hf) as (_ & Bf & c & Fc & Pc & Tc).
      inversion S as [|? ? ? ? ? ? Nin S'|? ? ? ? ? c' x' y' v2 ? Fc' Pt St S']; subst.
      { exfalso. apply Nin. destruct Fc as (a & b & -> & <- & _). apply in_map, in_elt. }
      assert (c' = c) by (eapply field_for_det; eassumption). subst c'. assert (Ic : In c cs) by (destruct Fc as (a & b & -> & _ & _); apply in_elt). assert (Ek : ckey c = k) by (destruct Fc as (a & b & _ & Q & _); exact Q).
      destruct (Dc t (rd_here _ _ _)) as (T & ET & _ & Hk). pose proof K as K2. rewrite (typeOf_kindOf _ _ _ ET) in K2. injection K2 as K2. rewrite K2 in Hk. destruct Hk as (cs' & Sf' & Fd). assert (cs' = cs) by congruence. subst cs'. rewrite Forall_forall in Fd. pose proof (Fd c Ic) as Dir. unfold direct in Dir.
      rewrite <- Pc in Ly. pose proof (lay_put _ _ _ _ _ _ _ Ly Dir) as Pt'. destruct (put_same _ _ _ _ _ Pt' _ _ _ Pt) as (-> & Ev). destruct (put_reaches _ _ _ _ _ Pt') as (Rx & _).
      assert (Bx : blank E (ctype c) x) by (apply Inv; auto; left; exact (eq_sym Ek)).
      assert (y' = y). { rewrite Tc in *. apply IHf; auto. rewrite <- Tc. eapply decodable_down; [|exact Dc]. eapply rd_field; [exact K|exact Sf|exact Ic|constructor]. }
      subst y'. rewrite (Ev eq_refl) in *. eapply IH; eauto. intros d a Id Ik Ra. apply (Inv d a); auto; [right; exact Ik|]. destruct (codecs_apart _ _ _ _ Sf c d Ic Id) as [<-|Ap]; [rewrite Ek in Ik; contradiction|].
      eapply put_other; [apply put_swap; exact Pt'|exact Ap|exact Ra].
  Qed.
  (* what is not mismatched is not refused *)
  Lemma refused_mismatch t j e : refused E G M t j e -> below t -> definite E j -> mismatch E D t j.
  Proof.
    induction 1 as [t j e Ht|t v j x e Bj|t v s x e Bt|t j Bt|t k j K N|t bits j s K Dg Pi|t bits j s K Dg Pi|t j s K Dg Pf|t e j er K Nj R IH|t e js j er K I R IH|t k e ms key j er K I R IH|t fs ms name params f j er K I Hf Nr R IH];
      intros B Df; try (rewrite (not_time t B) in Ht; discriminate); try (destruct (not_json t B); assumption); try (destruct (not_text t B); assumption).
    - pose proof (of_kind_kind _ _ K) as K'. eapply mm_kind; [exact K'|]. intro H. apply N. destruct k, j; try exact H; try exact Logic.I; inversion Df.
    - apply of_kind_kind in K. destruct Dg as [->| ->]; [|eapply mm_kind; [exact K|intros []]]. eapply mm_int; [exact K|]. inversion Df as [| |? Na| | |]; subst. intros z [H|(_ & H)]; [rewrite H in Pi; discriminate|]. rewrite (proj1 Na Pi) in H. discriminate.
    - apply of_kind_kind in K. destruct Dg as [->| ->]; [|eapply mm_kind; [exact K|intros []]]. eapply mm_uint; [exact K|]. inversion Df as [| |? Na| | |]; subst. intros z [H|(_ & H)]; [rewrite H in Pi; discriminate|]. rewrite (proj1 (proj2 Na) Pi) in H. discriminate.
    - assert (K' : kindOf E t = Some KFloat32 \/ kindOf E t = Some KFloat64) by (destruct K as [K|K]; apply of_kind_kind in K; auto). destruct Dg as [->| ->]; [|destruct K'; eapply mm_kind; try eassumption; intros []].
      eapply mm_float; [exact K'|]. inversion Df as [| |? Na| | |]; subst. intros z [(H & Nz)|(_ & H)]; [congruence|]. rewrite (proj2 (proj2 Na) Pf) in H. discriminate.
    - eapply mm_ptr; [exact (of_kind_kind _ _ K)|exact Nj|]. apply IH; auto. eapply down_elem; [exact B|exact K|reflexivity].
    - eapply mm_slice; [exact (of_kind_kind _ _ K)|exact I|]. apply IH; [eapply down_elem; [exact B|exact K|reflexivity]|]. inversion Df; subst. match goal with F : Forall _ _ |- _ => rewrite Forall_forall in F; apply F; exact I end.
    - destruct (no_map t k e B). apply of_kind_kind. exact K.
    - pose proof (of_kind_kind _ _ K) as K'. destruct (DC t (below_reads t B)) as (T & ET & _ & Hk). pose proof K' as K2. rewrite (typeOf_kindOf _ _ _ ET) in K2. injection K2 as K2. rewrite K2 in Hk. destruct Hk as (cs & Sf & _).
      destruct (proj1 (fields_same t fs cs B K' Sf) _ _ _ Hf) as (_ & Bf & c & Fc & _ & Tc). eapply mm_field; [exact K'|exact Sf|exact I|exact Fc|]. rewrite Tc. apply IH; [exact Bf|]. inversion Df as [| | | | |? F]; subst. rewrite Forall_forall in F. exact (F _ I).
  Qed.
End Agree.

(* null leaves a blank value as it is *)
Lemma stored_null E t v y : blank E t v -> stored E D t v JNull y -> y = v.
Proof.
  intros B S. inversion B; subst; inversion S; subst; one_kinds; try reflexivity; try contradiction.
  - intuition congruence.
  - match goal with A : go_of JNull _ |- _ => inversion A end. reflexivity.
  - f_equal. match goal with A : Forall _ ?l, C : Forall _ ?l' |- ?l' = ?l => symmetry; eapply blanks_eq; [|exact A|exact C]; congruence end.
  - symmetry. eapply blank_eq; eassumption.
Qed.

Lemma same_by_kind E G M t : same_reads E G M t -> read_by_kind E G M t.
Proof. intros SR u S. destruct (SR u S) as (T & ET & K & _). eauto. Qed.

Lemma C74_lem E G M w n t pt c v v' j : wf_types E -> embeds_structs E -> paths_ok E M -> no_point_loop E -> unmarshalers_return E M -> target E pt t -> ~ hazard E D t -> same_reads E G M t ->
  tree_of w n j -> blank E t v -> orderly j -> ~ mismatch E D t j -> Unmarshaler E G M t = Ok (Some c) -> compilesUnmarshaler M t c = true ->
  runUnmarshaler E M w c v n = Ok (v', None) -> UnmarshalFromNode E w n pt (VPtr (Some v)) = Ok (VPtr (Some v'), None).
Proof.
  intros W ES PO NL UR Tg NH SR Tr B Or Mm U Cp Run. pose proof (blank_typed E W _ _ B) as Ty.
  destruct (C62_lem E G M w t c v n j W PO NL UR Ty Tr U Cp) as (v1 & err & R & _ & H). rewrite Run in R. injection R as <- <-.
  destruct (C43_node_lem E w n pt t v j W ES Tg NH Ty Tr) as (v2 & err2 & R2 & _ & H2). destruct (H2 Mm) as (-> & St). rewrite R2. f_equal. f_equal. f_equal. f_equal.
  destruct Tg as (_ & Dc & _). assert (N : j = JNull \/ j <> JNull) by (destruct j; auto; right; discriminate). destruct N as [->|N].
  - destruct H as (-> & _). eapply stored_null; eassumption.
  - assert (Fi : filled E G M t v j v') by (destruct j; try exact H; contradiction). eapply (proj1 (same_stored E G M t ES SR Dc NH)); eauto. constructor.
Qed.
Lemma C74_both_lem E G M w n t pt c v j : wf_types E -> embeds_structs E -> paths_ok E M -> no_point_loop E -> unmarshalers_return E M -> target E pt t -> ~ hazard E D t -> same_reads E G M t ->
  tree_of w n j -> blank E t v -> orderly j -> definite E j -> ~ mismatch E D t j -> Unmarshaler E G M t = Ok (Some c) -> compilesUnmarshaler M t c = true ->
  exists v', runUnmarshaler E M w c v n = Ok (v', None) /\ UnmarshalFromNode E w n pt (VPtr (Some v)) = Ok (VPtr (Some v'), None).
Proof.
  intros W ES PO NL UR Tg NH SR Tr B Or Df Mm U Cp. assert (N : j <> JNull) by (intros ->; inversion Df).
  destruct (C62_sharp_lem E G M w t c v n j W PO NL UR (same_by_kind _ _ _ _ SR) (blank_typed E W _ _ B) Tr N U Cp) as (v' & err & R & _ & H).
  assert (err = None). { apply H. intros e Re. apply Mm. eapply refused_mismatch; eauto; [apply Tg|constructor]. }
  subst err. exists v'. split; [exact R|]. eapply C74_lem; eassumption.
Qed.

(* ---- structs without embedded fields ---- *)
Lemma heads_found E G l n p m : distinct G l -> (heads E G l n p m <-> In m l /\ parseVar G m = Some (n, p) /\ can E (mtype m)).
Proof.
  intro Di. split.
  - intros (a & b & -> & P & C & _). split; [apply in_elt|auto].
  - intros (I & P & C). apply in_split in I. destruct I as (a & b & ->). exists a, b. split; [reflexivity|]. split; [exact P|]. split; [exact C|].
    intros g ps I Q. exfalso. apply In_nth_error in I. destruct I as (j & N). assert (Lj : j < length a) by (apply nth_error_Some; congruence).
    assert (j = length a); [|lia]. eapply (Di j (length a) g m); [rewrite nth_error_app1 by exact Lj; exact N|rewrite nth_error_app2, Nat.sub_diag by lia; reflexivity|apply C60_fields_lem; exact Q|apply C60_fields_lem; exact P].
Qed.
Lemma C74_fields_lem E G M u fs cs : kindOf E u = Some (KStruct fs) -> lists 0 fs (fieldsOf M u) -> Forall (tidy E) fs -> usual G fs -> distinct G (fieldsOf M u) -> handled E G (fieldsOf M u) ->
  structFields E D u = Ok cs ->
  (forall name params f, heads E G (fieldsOf M u) name params f -> ~ raw_string E params (mtype f) /\ exists c, field_for cs name c /\ cindex c = mpath f /\ ctype c = mtype f) /\
  (forall c, In c cs -> exists params f, heads E G (fieldsOf M u) (ckey c) params f).
Proof.
  intros K Ls Ti Us Di Ha Sf. destruct (C46_exact_lem _ _ _ _ Sf) as (l & Of & Kp). inversion Of as [? ? fs' ? K' Of']; subst. assert (fs' = fs) by congruence. subst fs'.
  pose proof (found_alike E G fs 0 _ l Ls Ti Us Of') as F.
  assert (Nk : map ckey l = map (fun c => fst (fst c)) (found G (fieldsOf M u))) by (clear - F; induction F as [|c g l gs (A & _) _ IH]; cbn; congruence).
  assert (Nd : NoDup (map ckey l)) by (rewrite Nk; apply found_nodup; exact Di).
  assert (cs = l) by (eapply (kept_all l []); [exact Nd|exact Kp]). subst cs. split.
  - intros name params f Hf. apply heads_found in Hf; auto. destruct Hf as (I & P & C). split; [apply (Ha f name params I); apply C60_fields_lem; exact P|].
    assert (Ig : In (name, params, f) (found G (fieldsOf M u))) by (apply found_In; auto). clear - F Ig Nd. revert Nd.
    assert (H : forall a, NoDup (map ckey (a ++ l)) -> exists c, field_for (a ++ l) name c /\ cindex c = mpath f /\ ctype c = mtype f).
    { induction F as [|c g l gs A F IH]; intros a Nd; [destruct Ig|]. destruct Ig as [->|Ig].
      - destruct A as (A1 & A2 & A3 & _). exists c. cbn [fst snd] in *. split; [|auto]. exists a, l. split; [reflexivity|]. split; [exact A1|]. rewrite <- A1. rewrite map_app in Nd. cbn in Nd. apply NoDup_remove_2 in Nd. intro X. apply Nd. apply in_or_app. left. exact X.
      - destruct (IH Ig (a ++ [c])) as (d & X); [rewrite <- app_assoc; exact Nd|]. rewrite <- app_assoc in X. exists d. exact X. }
    apply (H []).
  - intros c Ic. assert (Ex : exists g, In g (found G (fieldsOf M u)) /\ alike E c g) by (clear - F Ic; induction F as [|d g l gs A F IH]; [destruct Ic|]; destruct Ic as [<-|Ic]; [exists g; split; [left; reflexivity|exact A]|destruct (IH Ic) as (x & I & X); exists x; split; [right; exact I|exact X]]).
    destruct Ex as ([[name params] f] & Ig & A1 & _). cbn [fst] in A1. apply found_In in Ig. destruct Ig as (I & P). exists params, f. apply heads_found; auto. rewrite A1. split; [exact I|]. split; [exact P|]. apply (Ha f name params I). apply C60_fields_lem. exact P.
Qed.
